From Verif Require Export FsetSpec.
Open Scope Z_scope.
Lemma half3 n : 3 * n <= 2 * (n * 3 / 2) + 1.
Proof. pose proof (Z.div_mod (n * 3) 2 ltac:(discriminate)). pose proof (Z.mod_pos_bound (n * 3) 2 ltac:(reflexivity)). lia. Qed.
Lemma half3_le n e : 3 * n <= 2 * e + 1 -> n * 3 / 2 <= e.
Proof. intro H. pose proof (Z.div_mod (n * 3) 2 ltac:(discriminate)). pose proof (Z.mod_pos_bound (n * 3) 2 ltac:(reflexivity)). lia. Qed.
Lemma round_up_spec x n : 0 < n -> (n | round_up x n) /\ x <= round_up x n < x + n.
Proof.
  intro H. unfold round_up. split; [exists ((x + (n - 1)) / n); reflexivity|].
  pose proof (Z.div_mod (x + (n - 1)) n ltac:(lia)). pose proof (Z.mod_pos_bound (x + (n - 1)) n H). nia.
Qed.
Lemma round_up_fix x n : 0 < n -> (n | x) -> round_up x n = x.
Proof.
  intros H [k ->]. unfold round_up. replace (k * n + (n - 1)) with ((n - 1) + k * n) by ring. rewrite Z.div_add by lia. rewrite Z.div_small by lia. lia.
Qed.
Lemma round_down_spec x n : 0 < n -> (n | round_down x n) /\ x - n < round_down x n <= x.
Proof.
  intro H. unfold round_down. split; [exists (x / n); reflexivity|].
  pose proof (Z.div_mod x n ltac:(lia)). pose proof (Z.mod_pos_bound x n H). nia.
Qed.
Lemma round_down_fix x n : 0 < n -> (n | x) -> round_down x n = x.
Proof. intros H [k ->]. unfold round_down. rewrite Z.div_mul by lia. reflexivity. Qed.
(** two successive roundings *)
Lemma div_div_bounds a f : 0 < f -> 4 * f * (a / f / 4) <= a < 4 * f * (a / f / 4 + 1).
Proof.
  intro H. pose proof (Z.div_mod a f ltac:(lia)). pose proof (Z.mod_pos_bound a f H). pose proof (Z.div_mod (a / f) 4 ltac:(lia)). pose proof (Z.mod_pos_bound (a / f) 4 ltac:(lia)).
  set (q := a / f) in *. set (r := q / 4) in *. nia.
Qed.
(** the merge buffers still fit after the sort buffers have been enlarged *)
Lemma merge_still_fits a f s m : 0 < f -> 0 <= m -> f * (s + 4 * (2 + 2 * m)) <= a -> 0 <= s ->
  f * (Z.max s (a / f / 4 - 2 * m - 2) + 4 * (2 + 2 * m)) <= a.
Proof.
  intros Hf Hm H Hs. pose proof (div_div_bounds a f Hf) as [B _]. destruct (Z.max_spec s (a / f / 4 - 2 * m - 2)) as [[_ ->]|[_ ->]]; [|exact H].
  set (q := a / f / 4) in *. nia.
Qed.
Lemma merge_used a f s m : 0 < f -> a < 4 * f * (Z.max s (a / f / 4 - 2 * m - 2) + 2 * m + 3).
Proof. intros Hf. pose proof (div_div_bounds a f Hf) as [_ B]. set (q := a / f / 4) in *. assert (q + 1 <= Z.max s (q - 2 * m - 2) + 2 * m + 3) by lia. nia. Qed.
Lemma used_le a f s m : 0 < f -> a < 4 * f * (s + 2 * m + 3) -> a / f / 4 - 2 * m - 2 <= s.
Proof. intros Hf H. pose proof (div_div_bounds a f Hf) as [B _]. set (q := a / f / 4) in *. assert (4 * f * q < 4 * f * (s + 2 * m + 3)) by lia. assert (q < s + 2 * m + 3) by nia. lia. Qed.
Lemma norm_fix s : form_accepts s -> norm s = s.
Proof.
  destruct s as [comp fp hide L m nsc scr ssc E S so tis tb t tso ts ws]. intros [H1 H2 H3 H4 H5 H6 H7 [H8 H8'] H9 H10 H11 H12 H13 H14 H15]; cbn [compresssize filepatches hidesize largesize maxtermsize numstorecaches scratchsize sizestorecache smallextension smallsize sortiosize termsinsmall threadbucketsize threads threadscratchoutsize threadscratchsize workspace] in *.
  unfold norm; cbn [compresssize filepatches hidesize largesize maxtermsize numstorecaches scratchsize sizestorecache smallextension smallsize sortiosize termsinsmall threadbucketsize threads threadscratchoutsize threadscratchsize workspace].
  unfold wordsize. change (4 ^ 2) with 16. cbv zeta.
  rewrite (Z.max_l m 200) by lia. rewrite (Z.max_l comp) by lia. rewrite (Z.max_l so (m * 4)) by lia. rewrite (Z.max_l scr) by lia.
  replace (if hide >? 0 then Z.max hide (4 * m * 16) else hide) with hide by (destruct (Z.gtb_spec hide 0); [rewrite Z.max_l by lia; reflexivity|reflexivity]).
  rewrite (Z.max_l ts) by lia. rewrite (Z.max_l tso) by lia. rewrite (Z.max_l fp t) by lia. rewrite (Z.max_l fp 4) by lia. rewrite (round_up_fix tis 16) by (lia || exact H9).
  replace (if t >=? 0 then (if L + E <? t * (1 + 10 * 10) * m * 4 then t * (1 + 10 * 10) * m * 4 - E else L) else L) with L.
  2:{ destruct (Z.geb_spec t 0); [|reflexivity]. destruct (Z.ltb_spec (L + E) (t * (1 + 10 * 10) * m * 4)); [lia|reflexivity]. }
  rewrite (Z.max_l S) by lia. rewrite (Z.max_l E) by (apply half3_le; lia).
  replace (if L >? 0 then Z.max L (2 * S) else L) with L by (destruct (Z.gtb_spec L 0); [rewrite Z.max_l by lia; reflexivity|reflexivity]).
  assert (Q : (L + E <? fp * (so + (2 + 2 * m) * 4)) = false) by (apply Z.ltb_ge; replace ((2 + 2 * m) * 4) with (4 * (2 + 2 * m)) by ring; lia).
  rewrite Q; cbn [andb]. rewrite (Z.max_l so) by (apply used_le; lia). reflexivity.
Qed.
Lemma norm_ok s : sizes_ok s -> form_accepts (norm s).
Proof.
  destruct s as [comp fp hide L m nsc scr ssc E S so tis tb t tso ts ws]. intros [HL HE]; cbn in HL, HE.
  unfold norm; cbn [compresssize filepatches hidesize largesize maxtermsize numstorecaches scratchsize sizestorecache smallextension smallsize sortiosize termsinsmall threadbucketsize threads threadscratchoutsize threadscratchsize workspace].
  unfold wordsize. change (4 ^ 2) with 16. cbv zeta.
  set (m' := Z.max m 200). assert (M : 200 <= m') by lia.
  set (so1 := Z.max so (m' * 4)). assert (So : 4 * m' <= so1) by lia.
  set (fp' := Z.max (Z.max fp t) 4). assert (F : 4 <= fp' /\ t <= fp') by lia.
  set (L1 := if t >=? 0 then (if L + E <? t * (1 + 10 * 10) * m' * 4 then t * (1 + 10 * 10) * m' * 4 - E else L) else L).
  assert (H1 : 0 <= L1 /\ (t < 0 \/ 404 * m' * t <= L1 + E)).
  { unfold L1. destruct (Z.geb_spec t 0); [|lia]. destruct (Z.ltb_spec (L + E) (t * (1 + 10 * 10) * m' * 4)); lia. }
  set (S' := Z.max S (16 * m' * 4)). assert (HS : 64 * m' <= S') by lia.
  set (E1 := Z.max E (S' * 3 / 2)). assert (HE1 : E <= E1 /\ 3 * S' <= 2 * E1 + 1) by (pose proof (half3 S'); lia).
  set (L2 := if L1 >? 0 then Z.max L1 (2 * S') else L1).
  assert (H2 : L1 <= L2 /\ (L2 = 0 \/ 2 * S' <= L2)). { unfold L2. destruct (Z.gtb_spec L1 0); lia. }
  set (mb := fp' * (so1 + (2 + 2 * m') * 4)). assert (HM : mb = fp' * (so1 + 4 * (2 + 2 * m'))) by (unfold mb; ring).
  set (short := L2 + E1 <? mb).
  set (E2 := if short && (L2 =? 0) then mb else E1). set (L3 := if short && negb (L2 =? 0) then mb - E1 else L2).
  assert (H3 : L2 <= L3 /\ E1 <= E2 /\ mb <= L3 + E2 /\ (L3 = 0 \/ 2 * S' <= L3)).
  { unfold L3, E2, short. destruct (Z.ltb_spec (L2 + E1) mb); destruct (Z.eqb_spec L2 0); cbn [andb negb]; lia. }
  constructor; cbn [compresssize filepatches hidesize largesize maxtermsize numstorecaches scratchsize sizestorecache smallextension smallsize sortiosize termsinsmall threadbucketsize threads threadscratchoutsize threadscratchsize workspace]; try lia.
  - destruct (Z.gtb_spec hide 0); lia.
  - apply round_up_spec; lia.
  - apply merge_still_fits; lia.
  - pose proof (merge_used (L3 + E2) fp' so1 m' ltac:(lia)) as U. set (q := (L3 + E2) / fp' / 4) in *. exact U.
Qed.
Lemma norm_raised s : sizes_ok s -> raised s (norm s).
Proof.
  destruct s as [comp fp hide L m nsc scr ssc E S so tis tb t tso ts ws]. intros [HL HE]; cbn in HL, HE.
  unfold norm; cbn [compresssize filepatches hidesize largesize maxtermsize numstorecaches scratchsize sizestorecache smallextension smallsize sortiosize termsinsmall threadbucketsize threads threadscratchoutsize threadscratchsize workspace].
  unfold wordsize. change (4 ^ 2) with 16. cbv zeta.
  set (m' := Z.max m 200).
  set (so1 := Z.max so (m' * 4)).
  set (fp' := Z.max (Z.max fp t) 4).
  set (L1 := if t >=? 0 then (if L + E <? t * (1 + 10 * 10) * m' * 4 then t * (1 + 10 * 10) * m' * 4 - E else L) else L).
  assert (H1 : L <= L1). { unfold L1. destruct (Z.geb_spec t 0); [|lia]. destruct (Z.ltb_spec (L + E) (t * (1 + 10 * 10) * m' * 4)); lia. }
  set (S' := Z.max S (16 * m' * 4)).
  set (E1 := Z.max E (S' * 3 / 2)).
  set (L2 := if L1 >? 0 then Z.max L1 (2 * S') else L1).
  assert (H2 : L1 <= L2). { unfold L2. destruct (Z.gtb_spec L1 0); lia. }
  set (mb := fp' * (so1 + (2 + 2 * m') * 4)).
  set (short := L2 + E1 <? mb).
  set (E2 := if short && (L2 =? 0) then mb else E1). set (L3 := if short && negb (L2 =? 0) then mb - E1 else L2).
  assert (H3 : L2 <= L3 /\ E1 <= E2).
  { unfold L3, E2, short. destruct (Z.ltb_spec (L2 + E1) mb); destruct (Z.eqb_spec L2 0); cbn [andb negb]; lia. }
  pose proof (proj2 (round_up_spec tis 16 ltac:(lia))).
  constructor; cbn [compresssize filepatches hidesize largesize maxtermsize numstorecaches scratchsize sizestorecache smallextension smallsize sortiosize termsinsmall threadbucketsize threads threadscratchoutsize threadscratchsize workspace]; try lia; try reflexivity.
  destruct (Z.gtb_spec hide 0); lia.
Qed.
(** ** what FORM reads *)
Lemma norm_facts s : sizes_ok s -> 0 < largesize s ->
  smallextension (norm s) = Z.max (smallextension s) (smallsize (norm s) * 3 / 2) /\ 0 < largesize (norm s) /\
  (threads s < 0 \/ 404 * maxtermsize (norm s) * threads s <= largesize (norm s) + smallextension s).
Proof.
  destruct s as [comp fp hide L m nsc scr ssc E S so tis tb t tso ts ws]. intros [HL HE] HP; cbn in HL, HE, HP.
  unfold norm; cbn [compresssize filepatches hidesize largesize maxtermsize numstorecaches scratchsize sizestorecache smallextension smallsize sortiosize termsinsmall threadbucketsize threads threadscratchoutsize threadscratchsize workspace].
  unfold wordsize. change (4 ^ 2) with 16. cbv zeta.
  set (m' := Z.max m 200). assert (M : 200 <= m') by lia.
  set (so1 := Z.max so (m' * 4)).
  set (fp' := Z.max (Z.max fp t) 4).
  set (L1 := if t >=? 0 then (if L + E <? t * (1 + 10 * 10) * m' * 4 then t * (1 + 10 * 10) * m' * 4 - E else L) else L).
  assert (H1 : L <= L1 /\ (t < 0 \/ 404 * m' * t <= L1 + E)). { unfold L1. destruct (Z.geb_spec t 0); [|lia]. destruct (Z.ltb_spec (L + E) (t * (1 + 10 * 10) * m' * 4)); lia. }
  set (S' := Z.max S (16 * m' * 4)).
  set (E1 := Z.max E (S' * 3 / 2)).
  set (L2 := if L1 >? 0 then Z.max L1 (2 * S') else L1).
  assert (H2 : L1 <= L2). { unfold L2. destruct (Z.gtb_spec L1 0); lia. }
  set (mb := fp' * (so1 + (2 + 2 * m') * 4)).
  destruct (Z.eqb_spec L2 0); [lia|]. cbn [negb]. rewrite Bool.andb_false_r, Bool.andb_true_r.
  split; [reflexivity|]. destruct (Z.ltb_spec (L2 + E1) mb); lia.
Qed.
Lemma norm_read s r : sizes_ok s -> 0 < largesize s ->
  r = mkSetup (compresssize s) (filepatches s) (hidesize s) (largesize (norm s)) (maxtermsize s) (numstorecaches s) (scratchsize (norm s)) (sizestorecache s) (smallextension s)
          (smallsize (norm s)) (sortiosize (norm s)) (termsinsmall (norm s)) (threadbucketsize s) (threads s) (threadscratchoutsize s) (threadscratchsize s) (workspace s) ->
  norm r = norm s.
Proof.
  intros Hs HL ->. pose proof (norm_ok s Hs) as [A1 A2 A3 A4 A5 A6 A7 [A8 A8'] A9 A10 A11 A12 A13 A14 A15]. destruct (norm_facts s Hs HL) as (F1 & F2 & F3).
  assert (Em : maxtermsize (norm s) = Z.max (maxtermsize s) 200) by reflexivity.
  assert (Ef : filepatches (norm s) = Z.max (Z.max (filepatches s) (threads s)) 4) by reflexivity.
  assert (Ec : compresssize (norm s) = Z.max (compresssize s) (2 * Z.max (maxtermsize s) 200 * 4)) by reflexivity.
  assert (Eh : hidesize (norm s) = if hidesize s >? 0 then Z.max (hidesize s) (4 * Z.max (maxtermsize s) 200 * 16) else hidesize s) by reflexivity.
  assert (Ets : threadscratchsize (norm s) = Z.max (threadscratchsize s) (4 * Z.max (maxtermsize s) 200 * 16)) by reflexivity.
  assert (Eto : threadscratchoutsize (norm s) = Z.max (threadscratchoutsize s) (4 * Z.max (maxtermsize s) 200 * 16)) by reflexivity.
  assert (Et : threads (norm s) = threads s) by reflexivity. rewrite Et in *.
  assert (Ew : norm s = mkSetup (compresssize (norm s)) (filepatches (norm s)) (hidesize (norm s)) (largesize (norm s)) (maxtermsize (norm s)) (numstorecaches s) (scratchsize (norm s)) (sizestorecache s)
    (smallextension (norm s)) (smallsize (norm s)) (sortiosize (norm s)) (termsinsmall (norm s)) (threadbucketsize s) (threads s) (threadscratchoutsize (norm s)) (threadscratchsize (norm s)) (workspace s)) by reflexivity.
  rewrite Ew. clear Ew Et. set (n := norm s) in *. clearbody n.
  rewrite Ec, Ef, Eh, Em, Ets, Eto, F1. rewrite <- Em.
  unfold norm at 1. cbn [compresssize filepatches hidesize largesize maxtermsize numstorecaches scratchsize sizestorecache smallextension smallsize sortiosize termsinsmall threadbucketsize threads threadscratchoutsize threadscratchsize workspace]. unfold wordsize. change (4 ^ 2) with 16. cbv zeta. rewrite <- Em, <- Ef, <- F1.
  rewrite (Z.max_l (sortiosize n) (maxtermsize n * 4)) by lia. rewrite (Z.max_l (scratchsize n)) by lia. rewrite (round_up_fix (termsinsmall n)) by (lia || exact A9).
  rewrite (Z.max_l (smallsize n)) by lia. rewrite <- F1.
  replace (if threads s >=? 0 then (if largesize n + smallextension s <? threads s * (1 + 10 * 10) * maxtermsize n * 4 then threads s * (1 + 10 * 10) * maxtermsize n * 4 - smallextension s else largesize n) else largesize n) with (largesize n).
  2:{ destruct (Z.geb_spec (threads s) 0); [|reflexivity]. destruct (Z.ltb_spec (largesize n + smallextension s) (threads s * (1 + 10 * 10) * maxtermsize n * 4)); [lia|reflexivity]. }
  replace (if largesize n >? 0 then Z.max (largesize n) (2 * smallsize n) else largesize n) with (largesize n) by (destruct (Z.gtb_spec (largesize n) 0); [rewrite Z.max_l by lia; reflexivity|reflexivity]).
  assert (Q : (largesize n + smallextension n <? filepatches n * (sortiosize n + (2 + 2 * maxtermsize n) * 4)) = false) by (apply Z.ltb_ge; replace ((2 + 2 * maxtermsize n) * 4) with (4 * (2 + 2 * maxtermsize n)) by ring; lia).
  rewrite Q; cbn [andb]. rewrite (Z.max_l (sortiosize n)) by (apply used_le; lia). reflexivity.
Qed.
(** ** scaling *)
Lemma scaled_spec n x : 0 <= n -> (0 <= x)%Q -> (inject_Z (scaled n x) <= inject_Z n * x < inject_Z (scaled n x + 1))%Q /\ 0 <= scaled n x.
Proof.
  intros Hn Hx. destruct x as [p q]. unfold scaled; cbn [Qnum Qden]. assert (Hp : 0 <= p) by (unfold Qle in Hx; cbn in Hx; lia).
  rewrite Z.quot_div_nonneg by nia. pose proof (Z.div_mod (n * p) (Zpos q) ltac:(lia)) as D. pose proof (Z.mod_pos_bound (n * p) (Zpos q) ltac:(lia)) as B.
  set (d := n * p / Z.pos q) in *. split; [|apply Z.div_pos; nia].
  unfold Qle, Qlt; cbn. split; nia.
Qed.
Lemma scaled_mono1 n x : 0 <= n -> (1 <= x)%Q -> n <= scaled n x.
Proof.
  intros Hn Hx. destruct x as [p q]. unfold Qle in Hx; cbn in Hx. unfold scaled; cbn [Qnum Qden]. rewrite Z.quot_div_nonneg by nia. apply Z.div_le_lower_bound; nia.
Qed.
