(** Proofs about [split]. *)
From Verif Require Import PolyProofs SectorProofs SectorProofs3 SectorInt.
From Verif Require Export SplitSpec SplitProofs.

Section P.
Variable F : Fld.
Local Open Scope fld_scope.
Add Field FldF : (f_th F).
Notation Poly := (poly F).
Notation pok := (pok F).

Lemma pok_def n (p : Poly) x : pok n p -> length x = n -> pdef p x.
Proof.
  intros H HL. pose proof (pok_twf F n p H) as T. destruct H as (E & _). split; [congruence|]. eapply Forall_impl; [|exact T].
  intros t [H1 H2]. apply nonneg_def; [congruence|exact H2].
Qed.
Lemma def_zero_nonneg (p : Poly) : pdef p (repeat 0 (pnv p)) -> pwf p /\ pnonneg p.
Proof.
  intros [_ H]. unfold pwf, pnonneg. split; (eapply Forall_impl; [|exact H]); cbv beta; intros t Ht.
  - generalize dependent (pnv p). intros n _ Ht. (revert Ht; generalize (fst t); clear; intros e Ht; assert (length (repeat (0:F) n) = length e) by (clear -Ht; induction Ht; cbn; congruence); rewrite repeat_length in *; congruence).
  - revert Ht. generalize (fst t), (pnv p). clear. intros e n. revert e. induction n as [|n IH]; intros e H; cbn in H; inversion H; subst; constructor; [|apply IH; assumption].
    match goal with H : pow_ok _ _ |- _ => destruct H as [H|H]; [congruence|exact H] end.
Qed.
Lemma normal_ne (p : Poly) : pnormal p -> ptm p <> [].
Proof. intros [_ [[_ H]|H]]; [exact H|rewrite H; discriminate]. Qed.

Lemma remap_pok n (p : Poly) ix : pok n p -> NoDup ix -> Forall (fun i => (i < n)%nat) ix ->
  exists q, remap_one_to_zero p ix = Some q /\ pok n q /\ pnormal q /\ forall x, length x = n -> peval q x = peval p (flip_coords ix x).
Proof.
  intros Hp Hn Hix.
  assert (G : Forall (fun t => Forall (fun i => (i < pnv p)%nat /\ (0 <= getZ i (fst t))%Z) ix) (ptm p)).
  { destruct Hp as (E & _ & _ & Hnn). unfold pnonneg in Hnn. rewrite Forall_forall in *. intros t Ht. rewrite Forall_forall. intros i Hi. split; [rewrite E; auto|apply getZ_nonneg, Hnn, Ht]. }
  assert (E := proj1 Hp).
  destruct (remap_correct F p ix (repeat 0 (pnv p)) (pok_def n p _ Hp ltac:(rewrite repeat_length; exact E)) Hn G) as (q & Q1 & Q2 & Q3 & Q4 & _).
  exists q. split; [exact Q1|]. rewrite <- Q2 in Q3. destruct (def_zero_nonneg q Q3). split; [repeat split; auto; [congruence|apply normal_ne, Q4]|]. split; [exact Q4|].
  intros x HL. destruct (remap_correct F p ix x (pok_def n p x Hp HL) Hn G) as (q' & R1 & _ & _ & _ & R5). congruence.
Qed.

(* multiply_by *)
Lemma multiply_by_terms (p : Poly) v i : ptm (multiply_by p v i) = map (fun t => (fst t, preplace_coeff v i t)) (ptm p).
Proof. unfold multiply_by, preplace. cbn [ptm]. rewrite map_map. cbn [snd]. induction (ptm p) as [|t l IH]; [reflexivity|]. cbn. f_equal. exact IH. Qed.
Lemma multiply_by_pok n (p : Poly) v i : pok n p -> pok n (multiply_by p v i).
Proof.
  intros (E & W & N & Q). unfold pok, SectorInt.pok, pwf, pnonneg. rewrite multiply_by_terms. split; [exact E|]. split; [apply Forall_map; exact W|]. split; [|apply Forall_map; exact Q].
  intros H. apply map_eq_nil in H. contradiction.
Qed.
Definition scale_point (i : nat) (v : F) (y : list F) : list F := set_coord i (v * nth i y 0) y.
Lemma multiply_by_eval n (p : Poly) v i y : pok n p -> (i < n)%nat -> length y = n -> peval (multiply_by p v i) y = peval p (scale_point i v y).
Proof.
  intros Hp Hi HL. unfold peval. rewrite multiply_by_terms, map_map. apply sumF_map_ext. intros t Ht. cbn [fst snd].
  pose proof (pok_twf F n p Hp) as T. unfold twf in T. rewrite Forall_forall in T. destruct (T t Ht) as [HL' Hn]. assert (G := getZ_nonneg i _ Hn).
  rewrite preplace_coeff_spec by (right; exact G). unfold scale_point, set_coord. rewrite meval_set_coord, (meval_split F i y) by lia.
  rewrite zpow_mul_base by (right; exact G). ring.
Qed.
Lemma pmul_num_pok n (p : Poly) c : pok n p -> pok n (pmul_num p c).
Proof.
  intros H. unfold pmul_num. destruct (feqb c 1); [exact H|]. destruct H as (E & W & N & Q). destruct (feqb c 0).
  - rewrite E. repeat split; try discriminate; repeat constructor; cbn [fst pnv pconst]; [apply zrow_length|]. unfold zrow. apply Forall_forall. intros z Hz. apply repeat_spec in Hz. lia.
  - repeat split; [exact E|apply Forall_map; exact W|intros H; apply map_eq_nil in H; contradiction|apply Forall_map; exact Q].
Qed.

(* the sector invariant *)
Definition sgood n (s : sector F) := swf n s /\ snonneg s /\ smono s.
Lemma sgood_get n s : sgood n s -> (forall c, In c (scast s) -> pok n (fst c) /\ pok n (snd c) /\ length (ptm (fst c)) = 1%nat) /\ (forall p, In p (sother s) -> pok n p) /\ pok n (sjac s).
Proof.
  intros (H1 & H2 & H3). destruct (sok_get F n s H1 H2) as (G1 & G2 & G3). split; [|tauto]. intros c Hc. destruct (G1 c Hc). unfold smono in H3. rewrite Forall_forall in H3. auto.
Qed.
Lemma sgood_intro n s : (forall c, In c (scast s) -> pok n (fst c) /\ pok n (snd c) /\ length (ptm (fst c)) = 1%nat) -> (forall p, In p (sother s) -> pok n p) -> pok n (sjac s) -> sgood n s.
Proof.
  intros H1 H2 H3. assert (G : forall p, In p (map fst (scast s) ++ map snd (scast s) ++ sother s ++ [sjac s]) -> pok n p).
  { intros p Hp. rewrite !in_app_iff in Hp. destruct Hp as [Hp|[Hp|[Hp|[<-|[]]]]]; [| |auto|auto]; apply in_map_iff in Hp as (c & <- & Hc); apply H1, Hc. }
  split; [|split].
  - apply Forall_forall. intros p Hp. destruct (G p Hp) as (A & B & C & _). auto.
  - apply Forall_forall. intros p Hp. apply G, Hp.
  - apply Forall_forall. intros c Hc. apply H1, Hc.
Qed.

Lemma mapped_refl n (s : sector F) : sector_mapped n s s (fun y => y) 1.
Proof.
  intros y _. split; [|split]; [| |ring].
  - induction (scast s); constructor; auto.
  - induction (sother s); constructor; auto.
Qed.
Lemma Forall2_trans' {A} (R1 R2 R3 : A -> A -> Prop) : (forall a b c, R1 a b -> R2 b c -> R3 a c) -> forall l1 l2, Forall2 R1 l1 l2 -> forall l3, Forall2 R2 l2 l3 -> Forall2 R3 l1 l3.
Proof. intros HR l1 l2 H. induction H as [|a b l1 l2 Hab H IH]; intros l3 H2; inversion H2; subst; constructor; eauto. Qed.
Lemma mapped_trans n (s s1 s2 : sector F) f j g k : sector_mapped n s s1 f j -> sector_mapped n s1 s2 g k -> (forall y, length y = n -> length (g y) = n) ->
  sector_mapped n s s2 (fun y => f (g y)) (j * k).
Proof.
  intros H1 H2 Hg y Hy. destruct (H2 y Hy) as (A2 & B2 & C2). destruct (H1 (g y) (Hg y Hy)) as (A1 & B1 & C1). split; [|split].
  - eapply Forall2_trans'; [|exact A1|exact A2]. cbn. intros a b c -> ->. reflexivity.
  - eapply Forall2_trans'; [|exact B1|exact B2]. cbn. intros a b c -> ->. reflexivity.
  - rewrite C2, C1. ring.
Qed.
Lemma mapped_ext n (s s' : sector F) f g j k : sector_mapped n s s' f j -> (forall y, length y = n -> f y = g y) -> j = k -> sector_mapped n s s' g k.
Proof. intros H E <- y Hy. rewrite <- (E y Hy). apply H, Hy. Qed.

Lemma rescale_ok n i v (s : sector F) : sgood n s -> (i < n)%nat -> sgood n (rescale_sector i v s) /\ sector_mapped n s (rescale_sector i v s) (scale_point i v) v.
Proof.
  intros H Hi. destruct (sgood_get n s H) as (G1 & G2 & G3). split.
  - apply sgood_intro; cbn [rescale_sector scast sother sjac].
    + intros c Hc. apply in_map_iff in Hc as (d & <- & Hd). destruct (G1 d Hd) as (A & B & C). cbn [fst snd]. split; [apply multiply_by_pok, A|]. split; [apply multiply_by_pok, B|].
      rewrite multiply_by_terms, map_length. exact C.
    + intros p Hp. apply in_map_iff in Hp as (d & <- & Hd). apply multiply_by_pok, G2, Hd.
    + apply multiply_by_pok, pmul_num_pok, G3.
  - intros y Hy. cbn [rescale_sector scast sother sjac]. split; [|split].
    + clear -G1 Hi Hy. induction (scast s) as [|c l IH]; constructor; [|apply IH; intros d Hd; apply G1; right; exact Hd].
      destruct (G1 c (or_introl eq_refl)) as (A & B & _). cbn [fst snd]. rewrite !(multiply_by_eval n) by assumption. reflexivity.
    + clear -G2 Hi Hy. induction (sother s) as [|c l IH]; constructor; [|apply IH; intros d Hd; apply G2; right; exact Hd].
      apply (multiply_by_eval n); auto. apply G2; left; reflexivity.
    + rewrite (multiply_by_eval n); [|apply pmul_num_pok, G3|assumption..]. apply pmul_num_eval.
Qed.

Lemma remap_cast_ok n i (m p : Poly) : pok n m -> pok n p -> length (ptm m) = 1%nat -> (i < n)%nat ->
  exists m' p', remap_cast i (m, p) = Some (m', p') /\ pok n m' /\ pok n p' /\ length (ptm m') = 1%nat /\
    forall y, length y = n -> peval m' y * peval p' y = peval m (flip_coords [i] y) * peval p (flip_coords [i] y).
Proof.
  intros Hm Hp HL Hi. unfold remap_cast. cbn [fst snd]. destruct m as [nm tm]. cbn [ptm] in HL. destruct tm as [|t [|? ?]]; cbn [length] in HL; try discriminate. clear HL.
  cbn [ptm]. set (k := getZ i (fst t)).
  assert (Tm := pok_twf F n _ Hm). apply Forall_inv in Tm. destruct Tm as [Lt Nt]. assert (Kn : (0 <= k)%Z) by (apply getZ_nonneg, Nt).
  assert (Hps : pok n (shift_col i k p)).
  { destruct Hp as (E & W & N & Q). split; [exact E|]. split; [apply shift_col_wf, W|]. split; [apply shift_col_ne, N|]. unfold pnonneg in *. cbn [shift_col ptm]. apply Forall_map. eapply Forall_impl; [|exact Q].
    intros u Hu. cbn [fst]. apply upd_nonneg; [|exact Hu]. pose proof (getZ_nonneg i (fst u) Hu). lia. }
  assert (Hmz : pok n (zero_col i (mkPoly nm [t]))).
  { destruct Hm as (E & W & N & Q). split; [exact E|]. split; [|split; [discriminate|]]; repeat constructor; cbn [fst]; [rewrite upd_length, Lt; symmetry; exact E|apply upd_nonneg; [lia|exact Nt]]. }
  destruct (remap_pok n _ [i] Hps) as (q & Q1 & Q2 & _ & Q4); [repeat constructor; intros []|repeat constructor; exact Hi|]. rewrite Q1.
  set (m0 := zero_col i (mkPoly nm [t])) in *.
  exists (fst (refactorize (m0, q) [i])), (snd (refactorize (m0, q) [i])).
  assert (Hmn := Hmz). assert (Hqn := Q2). destruct Hmn as (E1 & W1 & N1 & P1). destruct Hqn as (E2 & W2 & N2 & P2).
  destruct (shift_nonneg F i m0 q W1 W2 N2 ltac:(lia) ltac:(congruence) P1 P2) as [P1' P2'].
  assert (Pm : pok n (fst (refactorize (m0, q) [i]))).
  { split; [exact E1|]. split; [apply shift_col_wf, W1|]. split; [apply shift_col_ne, N1|exact P1']. }
  assert (Pq : pok n (snd (refactorize (m0, q) [i]))).
  { split; [exact E2|]. split; [apply shift_col_wf, W2|]. split; [apply shift_col_ne, N2|exact P2']. }
  split; [destruct (refactorize (m0, q) [i]); reflexivity|]. split; [exact Pm|]. split; [exact Pq|]. split; [reflexivity|].
  intros y Hy.
  assert (A1 : peval (fst (refactorize (m0, q) [i])) y * peval (snd (refactorize (m0, q) [i])) y = peval m0 y * peval q y).
  { change (teval F (ptm (fst (refactorize (m0, q) [i]))) y * teval F (ptm (snd (refactorize (m0, q) [i]))) y = teval F (ptm m0) y * teval F (ptm q) y).
    rewrite <- !(teval_mul F n) by (try apply pok_twf; assumption). f_equal. apply (tmul_shift F n i (col_min i q) (ptm m0) (ptm q)); apply pok_twf; assumption. }
  rewrite A1, Q4 by exact Hy. set (z := flip_coords [i] y). assert (Hz : length z = n) by (unfold z; rewrite flip_length; exact Hy).
  assert (A2 : peval m0 y = peval m0 z).
  { unfold peval, m0. cbn [zero_col ptm map sumF fst snd]. unfold z. rewrite flip_cons by (intros []). rewrite flip_nil, meval_upd0_indep by lia. reflexivity. }
  rewrite A2.
  change (teval F (ptm m0) z * teval F (ptm (shift_col i k p)) z = teval F [t] z * teval F (ptm p) z).
  assert (T1 : twf F n [t]) by (apply (pok_twf F n (mkPoly nm [t])), Hm). assert (T2 := pok_twf F n _ Hp). assert (T3 := pok_twf F n _ Hmz). assert (T4 := pok_twf F n _ Hps).
  rewrite <- !(teval_mul F n) by assumption. f_equal. rewrite <- (tmul_shift F n i k (ptm m0) (ptm (shift_col i k p)) T3 T4). f_equal.
  - unfold m0, tmap. cbn [zero_col ptm map fst snd]. rewrite getZ_upd, Nat.eqb_refl by lia. replace (upd i (0 + k)%Z (upd i 0%Z (fst t))) with (fst t); [destruct t; reflexivity|].
    apply (nth_ext _ _ 0%Z 0%Z); [rewrite !upd_length; reflexivity|]. intros j Hj. rewrite !nth_upd, upd_length. destruct (Nat.eqb_spec i j) as [<-|]; [|reflexivity].
    destruct (Nat.ltb_spec i (length (fst t))); [|lia]. cbn. unfold k, getZ. reflexivity.
  - unfold tmap. cbn [shift_col ptm]. rewrite map_map. rewrite <- (map_id (ptm p)) at 2. apply map_ext_in. intros u Hu. cbn [fst snd]. destruct u as [e c]. cbn [fst snd]. f_equal.
    unfold twf in T2. rewrite Forall_forall in T2. destruct (T2 _ Hu) as [Le _]. cbn [fst] in Le. rewrite getZ_upd, Nat.eqb_refl by lia.
    apply (nth_ext _ _ 0%Z 0%Z); [rewrite !upd_length; reflexivity|]. intros j Hj. rewrite !nth_upd, upd_length. destruct (Nat.eqb_spec i j) as [<-|]; [|reflexivity].
    destruct (Nat.ltb_spec i (length e)); [|lia]. cbn. unfold getZ. lia.
Qed.

Lemma all_some_map {A B} (f : A -> option B) (P : A -> B -> Prop) l : (forall a, In a l -> exists b, f a = Some b /\ P a b) ->
  exists r, all_some (map f l) = Some r /\ Forall2 P l r.
Proof.
  induction l as [|a l IH]; intros H; cbn [map all_some]; [exists []; auto|].
  destruct (H a (or_introl eq_refl)) as (b & -> & Hb). destruct IH as (r & -> & Hr); [intros; apply H; right; assumption|]. exists (b :: r). auto.
Qed.
Lemma Forall2_in_r {A B} (P : A -> B -> Prop) l r b : Forall2 P l r -> In b r -> exists a, In a l /\ P a b.
Proof. induction 1 as [|x y l r Hxy H IH]; intros Hb; [destruct Hb|]. destruct Hb as [<-|Hb]; [exists x; cbn; auto|]. destruct (IH Hb) as (a & Ha & Hp). exists a; cbn; auto. Qed.
Lemma Forall2_impl' {A B} (P Q : A -> B -> Prop) l r : (forall a b, P a b -> Q a b) -> Forall2 P l r -> Forall2 Q l r.
Proof. intros H. induction 1; constructor; auto. Qed.
Lemma flip_ok n i (s : sector F) : sgood n s -> (i < n)%nat ->
  exists s1, flip_sector i s = Some s1 /\ sgood n s1 /\ sector_mapped n s s1 (flip_coords [i]) 1.
Proof.
  intros H Hi. destruct (sgood_get n s H) as (G1 & G2 & G3). unfold flip_sector.
  destruct (all_some_map (remap_cast i) (fun c c' => pok n (fst c') /\ pok n (snd c') /\ length (ptm (fst c')) = 1%nat /\
     forall y, length y = n -> peval (fst c') y * peval (snd c') y = peval (fst c) (flip_coords [i] y) * peval (snd c) (flip_coords [i] y)) (scast s)) as (c & -> & C).
  { intros [m p] Hc. destruct (G1 _ Hc) as (A & B & L). destruct (remap_cast_ok n i m p A B L Hi) as (m' & p' & E & R). exists (m', p'). split; [exact E|exact R]. }
  destruct (all_some_map (fun p => remap_one_to_zero p [i]) (fun p q => pok n q /\ forall y, length y = n -> peval q y = peval p (flip_coords [i] y)) (sother s)) as (o & -> & O).
  { intros p Hp. destruct (remap_pok n p [i] (G2 p Hp)) as (q & A & B & _ & D); [repeat constructor; intros []|repeat constructor; exact Hi|]. exists q. auto. }
  destruct (remap_pok n (sjac s) [i] G3) as (j & -> & J1 & _ & J2); [repeat constructor; intros []|repeat constructor; exact Hi|].
  eexists. split; [reflexivity|]. split.
  - apply sgood_intro; cbn [scast sother sjac]; [| |exact J1].
    + intros d Hd. destruct (Forall2_in_r _ _ _ _ C Hd) as (a & _ & R). tauto.
    + intros d Hd. destruct (Forall2_in_r _ _ _ _ O Hd) as (a & _ & R). tauto.
  - intros y Hy. cbn [scast sother sjac]. split; [|split].
    + eapply Forall2_impl'; [|exact C]. cbn. intros a b (_ & _ & _ & R). apply R, Hy.
    + eapply Forall2_impl'; [|exact O]. cbn. intros a b (_ & R). apply R, Hy.
    + rewrite J2 by exact Hy. ring.
Qed.

Lemma split_point_length ix : forall vs cs (y : list F), length (split_point ix vs cs y) = length y.
Proof. induction ix as [|i ix IH]; intros [|v vs] [|c cs] y; cbn; auto. unfold set_coord. rewrite upd_length. apply IH. Qed.

Lemma split_ok n ix : forall vs (s : sector F), sgood n s -> Forall (fun i => (i < n)%nat) ix -> length vs = length ix ->
  exists l, split_recursively s ix vs = Some l /\
    Forall2 (fun cs s' => sgood n s' /\ sector_mapped n s s' (split_point ix vs cs) (split_jac vs cs)) (choices (length ix)) l.
Proof.
  induction ix as [|i ix IH]; intros [|v vs] s H Hix HL; cbn [length] in HL; try discriminate.
  - exists [s]. split; [reflexivity|]. constructor; [|constructor]. split; [exact H|apply mapped_refl].
  - apply Forall_cons_iff in Hix as [Hi Hix]. cbn [split_recursively length choices].
    destruct (flip_ok n i s H Hi) as (s1 & -> & G1 & M1).
    destruct (rescale_ok n i v s H Hi) as [GL ML]. destruct (rescale_ok n i (1 - v) s1 G1 Hi) as [GR MR].
    destruct (IH vs _ GL Hix ltac:(lia)) as (a & -> & A). destruct (IH vs _ GR Hix ltac:(lia)) as (b & -> & B).
    exists (a ++ b). split; [reflexivity|]. apply Forall2_app.
    + assert (Q : forall cs s', sgood n s' /\ sector_mapped n (rescale_sector i v s) s' (split_point ix vs cs) (split_jac vs cs) ->
        sgood n s' /\ sector_mapped n s s' (split_point (i :: ix) (v :: vs) (false :: cs)) (split_jac (v :: vs) (false :: cs))).
      { intros cs s' [Q1 Q2]. split; [exact Q1|]. eapply mapped_ext; [eapply mapped_trans; [exact ML|exact Q2|]|..].
        - intros y Hy. rewrite split_point_length. exact Hy.
        - intros y Hy. reflexivity.
        - reflexivity. }
      clear -A Q. induction A; constructor; auto.
    + assert (Q : forall cs s', sgood n s' /\ sector_mapped n (rescale_sector i (1 - v) s1) s' (split_point ix vs cs) (split_jac vs cs) ->
        sgood n s' /\ sector_mapped n s s' (split_point (i :: ix) (v :: vs) (true :: cs)) (split_jac (v :: vs) (true :: cs))).
      { intros cs s' [Q1 Q2]. split; [exact Q1|]. eapply mapped_ext; [eapply mapped_trans; [exact M1|eapply mapped_trans; [exact MR|exact Q2|]|]|..].
        - intros y Hy. rewrite split_point_length. exact Hy.
        - intros y Hy. unfold scale_point, set_coord. rewrite upd_length, split_point_length. exact Hy.
        - intros y Hy. cbn [split_point]. set (z := split_point ix vs cs y). cbn [split_map]. unfold scale_point, set_coord. rewrite flip_cons by (intros []). rewrite flip_nil.
          assert (Hz : length z = n) by (unfold z; rewrite split_point_length; exact Hy). rewrite nth_upd, Nat.eqb_refl. destruct (Nat.ltb_spec i (length z)); [|lia]. cbn [andb].
          apply (nth_ext _ _ 0 0); rewrite ?upd_length; [reflexivity|]. intros j Hj. rewrite !nth_upd, !upd_length. destruct (_ && _); reflexivity.
        - cbn [split_jac split_scale]. ring. }
      clear -B Q. induction B; constructor; auto.
Qed.
End P.
