(** The moment functional is the iterated Riemann integral over the unit cube. *)
From Coquelicot Require Import Coquelicot.
From Verif Require Import SectorInt RealField.
Local Open Scope nat_scope.

(** int_0^1 dx_0 int_0^1 dx_1 ... int_0^1 dx_(n-1) f(x) *)
Fixpoint cube_RInt (n : nat) (f : list R -> R) : R :=
  match n with O => f [] | S m => RInt (fun v => cube_RInt m (fun xs => f (v :: xs))) 0 1 end.

Lemma cube_RInt_ext n : forall f g, (forall x, length x = n -> f x = g x) -> cube_RInt n f = cube_RInt n g.
Proof.
  induction n as [|n IH]; intros f g H; cbn [cube_RInt]; [apply H; reflexivity|].
  apply RInt_ext. intros v _. apply IH. intros xs Hxs. apply H. cbn. rewrite Hxs. reflexivity.
Qed.
Lemma char0_R n : @natF R_Fld (S n) <> @f0 R_Fld.
Proof. rewrite natF_R. apply not_0_INR. lia. Qed.

Lemma is_RInt_pow k : is_RInt (fun v => pow v k) 0 1 (/ INR (S k)).
Proof.
  assert (Hk : INR (S k) <> 0%R) by (apply not_0_INR; lia).
  evar_last. 
  - apply (is_RInt_derive (fun v => (pow v (S k) / INR (S k))%R) (fun v => pow v k)).
    + intros x _. auto_derive; [exact I|]. cbn [Init.Nat.pred]. change (match k with O => 1%R | S _ => (INR k + 1)%R end) with (INR (S k)). field. exact Hk.
    + intros x _. apply (ex_derive_continuous (fun v => pow v k)). auto_derive. exact I.
  - unfold minus, plus, opp. cbn -[INR]. rewrite pow1. field. exact Hk.
Qed.
Lemma tint_R n : forall ts : list (term R_Fld), twf R_Fld n ts ->
  cube_RInt n (fun x => teval R_Fld ts x) = tint R_Fld ts.
Proof.
  induction n as [|n IH]; intros ts Hts.
  - cbn [cube_RInt]. unfold teval, tint. apply (@sumF_map_ext R_Fld). intros t Ht. unfold twf in Hts. rewrite Forall_forall in Hts. destruct (Hts t Ht) as [HL _].
    destruct (fst t); [|discriminate]. reflexivity.
  - cbn [cube_RInt]. set (red := fun v => map (fun t : term R_Fld => (tl (fst t), @fmul R_Fld (snd t) (@zpow R_Fld v (hd 0%Z (fst t))))) ts).
    rewrite (RInt_ext _ (fun v => tint R_Fld (red v))).
    2:{ intros v _. rewrite <- IH.
        - apply cube_RInt_ext. intros xs Hxs. unfold teval, red. rewrite map_map. apply (@sumF_map_ext R_Fld). intros t Ht. cbn [fst snd].
          unfold twf in Hts. rewrite Forall_forall in Hts. destruct (Hts t Ht) as [HL _]. destruct (fst t) as [|k e]; [discriminate|]. cbn [hd tl meval].
          change (snd t * (@zpow R_Fld v k * @meval R_Fld e xs) = snd t * @zpow R_Fld v k * @meval R_Fld e xs)%R. ring.
        - unfold twf, red. apply Forall_map. eapply Forall_impl; [|exact Hts]. intros t [HL Hn]. cbn [fst]. destruct (fst t) as [|k e]; [discriminate|]. cbn in HL |- *.
          split; [lia|]. inversion Hn; assumption. }
    apply is_RInt_unique. unfold tint, red. clear IH. induction Hts as [|t ts [HL Hn] Hts IH].
    + cbn [map sumF]. evar_last; [apply (is_RInt_const 0 1 (0%R : R_NormedModule))|]. unfold scal. cbn. unfold mult. cbn. ring.
    + cbn [map sumF]. destruct t as [e c]. cbn [fst snd] in *. destruct e as [|k e]; [discriminate|]. cbn [hd tl].
      inversion Hn as [|? ? Hk He]; subst.
      apply (is_RInt_plus (V := R_NormedModule) (fun v => (c * @zpow R_Fld v k * cube_moment R_Fld e)%R)); [|exact IH].
      evar_last.
      * apply (is_RInt_ext (V := R_NormedModule) (fun v => scal (c * cube_moment R_Fld e)%R (pow v (Z.to_nat k)))).
        -- intros v _. rewrite <- (Z2Nat.id k Hk) at 2. rewrite (@zpow_of_nat R_Fld).
           replace (@npow R_Fld v (Z.to_nat k)) with (pow v (Z.to_nat k)) by (symmetry; apply npow_R). unfold scal. cbn. unfold mult. cbn. ring.
        -- apply (is_RInt_scal (V := R_NormedModule)). apply is_RInt_pow.
      * unfold scal. cbn -[INR]. unfold mult. cbn -[INR]. unfold cube_moment. cbn [map prodF].
        replace (@zF R_Fld (k + 1)) with (INR (S (Z.to_nat k))) by (rewrite zF_R, S_INR, INR_IZR_INZ, Z2Nat.id, plus_IZR by exact Hk; reflexivity).
        change (@fmul R_Fld) with Rmult. change (@finv R_Fld) with Rinv. assert (A : forall a b d : R, (a * b * d = a * (d * b))%R) by (intros; ring). exact (A _ _ _).
Qed.
