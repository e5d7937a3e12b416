(** Every final sector comes from a sequence of substitutions; initial sectors. *)
From Verif Require Export SectorReal SectorInt.
Local Open Scope nat_scope.

Lemma decomposition_paths (F : Fld) n ix fuel (s : sector F) l : good_ix n ix -> swf n s -> srefactorized ix s ->
  iterative_decomposition fuel s ix = Some l ->
  exists paths, sector_tree n paths /\
    Forall2 (fun path s' => sector_transformed n s s' (path_subst path) (path_jac path) /\ standard_form ix s') paths l.
Proof.
  intros Hix Hwf Href H.
  refine (decomposition_ind F n ix (fun s l => exists paths, sector_tree n paths /\
    Forall2 (fun path s' => sector_transformed n s s' (path_subst path) (path_jac path) /\ standard_form ix s') paths l) Hix _ _ fuel s l Hwf Href H).
  - clear. intros s _ _ Hst. exists [[]]. split; [constructor|]. constructor; [|constructor]. split; [|exact Hst]. cbn [path_subst path_jac]. apply transformed_refl.
  - clear. intros s S0 rs Hwf _ _ Hn Hl Hr _ Hf.
    assert (Hg : forall sp, In sp (subsector_sets S0) -> good_set n sp) by (apply good_sets_of; assumption).
    assert (E : exists pss, Forall2 (fun _ p => sector_tree n p) (subsector_sets S0) pss /\
       Forall2 (fun path s' => sector_transformed n s s' (path_subst path) (path_jac path) /\ standard_form ix s')
         (concat (map (fun q => map (cons (fst q)) (snd q)) (combine (subsector_sets S0) pss))) (concat rs)).
    { revert Hf Hg. generalize (subsector_sets S0). clear -Hwf. intros sps Hf. induction Hf as [|sp r sps rs (_ & _ & ps & Ht & Hps) Hf IH]; intros Hg.
      - exists []. split; constructor.
      - destruct IH as (pss & I1 & I2); [intros; apply Hg; right; assumption|]. exists (ps :: pss). split; [constructor; assumption|].
        cbn [combine map concat fst snd]. apply Forall2_app; [|exact I2]. clear -Hps Hwf Hg Ht.
        pose proof (tree_good n ps Ht) as Hgood. clear Ht. assert (G : good_set n sp) by (apply Hg; left; reflexivity). clear Hg.
        induction Hps as [|path s' ps r [H1 H2] Hps IH]; [constructor|]. inversion Hgood as [|? ? Hp Hgood']; subst. constructor; [|apply IH, Hgood'].
        split; [|exact H2]. cbn [path_subst path_jac].
        apply (transformed_trans F n s (subsector s sp) s'); [apply subsector_transformed; assumption|exact H1| |].
        + intros y Hy. rewrite path_subst_length. exact Hy.
        + intros y Hy Hz. apply (path_subst_nz F path n); assumption. }
    destruct E as (pss & E1 & E2). eexists. split; [|exact E2]. apply tree_node; assumption.
Qed.

Lemma make_sector_ok (F : Fld) cast other jac (s : sector F) :
  Forall (fun p => pwf p /\ ptm p <> []) (cast ++ other ++ (match jac with Some j => [j] | None => [] end)) ->
  make_sector cast other jac = Some s ->
  let n := sector_nv s in swf n s /\ srefactorized (seq 0 n) s /\
  Forall2 (fun p c => forall x, length x = n -> Forall (fun v => v <> f0) x -> fmul (peval (fst c) x) (peval (snd c) x) = peval p x) cast (scast s).
Proof.
  intros Hok H n. subst n. unfold make_sector in H. destruct cast as [|p0 cast]; [discriminate|].
  set (n := pnv p0) in *. set (j := match jac with Some j => j | None => pconst n f1 end) in *.
  destruct (forallb _ _) eqn:E; [|discriminate]. assert (Es : s = mkSector (map (fun p => poly_refactorize p []) (p0 :: cast)) other j) by congruence. clear H. subst s. rewrite forallb_forall in E.
  assert (Hn : forall p, In p ((p0 :: cast) ++ other ++ [j]) -> n = pnv p) by (intros p Hp; apply Nat.eqb_eq, E, Hp).
  assert (Hj : pwf j /\ ptm j <> []).
  { unfold j. destruct jac as [j'|]; [rewrite Forall_forall in Hok; apply Hok; rewrite !in_app_iff; right; right; left; reflexivity|].
    split; [repeat constructor; apply zrow_length|discriminate]. }
  assert (Hok' : forall p, In p ((p0 :: cast) ++ other ++ [j]) -> pwf p /\ ptm p <> []).
  { intros p Hp. rewrite !in_app_iff in Hp. rewrite Forall_forall in Hok. destruct Hp as [Hp|[Hp|[<-|[]]]]; [| |exact Hj]; apply Hok; rewrite !in_app_iff; auto. }
  assert (Env : sector_nv (mkSector (map (fun p => poly_refactorize p []) (p0 :: cast)) other j) = n) by reflexivity.
  change (sector_nv _) with n.
  assert (Hc : forall p, In p (p0 :: cast) -> let r := poly_refactorize p [] in
     (pnv (fst r) = n /\ pwf (fst r) /\ ptm (fst r) <> []) /\ (pnv (snd r) = n /\ pwf (snd r) /\ ptm (snd r) <> []) /\
     Forall (fun i => col_min i (snd r) = 0%Z) (seq 0 n) /\
     (forall x, length x = n -> Forall (fun v => v <> f0) x -> fmul (peval (fst r) x) (peval (snd r) x) = peval p x)).
  { intros p Hp. cbv zeta. destruct (Hok' p) as [W N]; [rewrite in_app_iff; left; exact Hp|]. assert (En : n = pnv p) by (apply Hn; rewrite in_app_iff; left; exact Hp).
    unfold poly_refactorize. cbn [refactorize].
    assert (Wc : pwf (@pconst F (pnv p) f1)) by (repeat constructor; apply zrow_length).
    destruct (refactorize_all_wf F (pconst (pnv p) f1) p Wc W eq_refl) as (A & B).
    split; [|split; [|split]].
    - split; [cbn; congruence|]. split; [exact A|]. cbn. discriminate.
    - split; [cbn; congruence|]. split; [exact B|]. cbn. intros E'. apply map_eq_nil in E'. contradiction.
    - apply Forall_forall. intros i Hi. apply in_seq in Hi. apply refactorize_all_col_min; [exact W|exact N|lia].
    - intros x HL Hx. pose proof (refactorize_all_eval F (pconst (pnv p) f1) p x Wc W eq_refl ltac:(congruence) Hx) as Hev. cbv zeta in Hev. rewrite Hev.
      unfold peval at 1. cbn [pconst ptm map sumF fst snd]. rewrite meval_zrow. pose proof (f_th F) as Th. destruct Th as [[] _ _ _]. rewrite (Radd_comm _ f0), Radd_0_l, !Rmul_1_l. reflexivity. }
  split; [|split].
  - apply swf_intro; cbn [scast sother sjac].
    + intros c Hin. apply in_map_iff in Hin as (p & <- & Hp). split; apply (Hc p Hp).
    + intros p Hp. split; [symmetry; apply Hn; rewrite !in_app_iff; auto|apply Hok'; rewrite !in_app_iff; auto].
    + split; [symmetry; apply Hn; rewrite !in_app_iff; right; right; left; reflexivity|exact Hj].
  - unfold srefactorized. cbn [scast]. apply Forall_map, Forall_forall. intros p Hp. apply (Hc p Hp).
  - cbn [scast]. assert (G : forall l, (forall p, In p l -> In p (p0 :: cast)) -> Forall2 (fun p c => forall x, length x = n -> Forall (fun v => v <> f0) x -> fmul (peval (fst c) x) (peval (snd c) x) = peval p x) l (map (fun p => poly_refactorize p []) l)).
    { induction l as [|p l IH]; intros Hl; constructor; [apply (Hc p), Hl; left; reflexivity|apply IH; intros; apply Hl; right; assumption]. }
    apply G. auto.
Qed.
