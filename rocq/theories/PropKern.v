(** C73: the lattice summation kernels compute the shifted lattice rule (model KernModel, specification KernSpec). *)
From Coq Require Import Lia Lra Psatz.
From Verif Require Import KernModel KernSpec KernProofs.
Local Open Scope Z_scope.

Definition lattice (n : Z) (genvec : list Z) (shift : list R) : Prop :=
  0 < n < 2 ^ 53 /\ Forall (fun z => 0 <= z <= n) genvec /\ Forall (fun s => 0 <= s < 1)%R shift.
(** the point passes the sign checks *)
Definition passes (f : R -> R) (body : list R -> option R) n genvec shift i : Prop := body (map f (point n genvec shift i)) <> None.

(** CPU worker *)
Theorem C73_cpu_sum : forall w f body n genvec shift V i1 i2, lattice n genvec shift -> (1 <= V)%nat -> 0 <= i1 <= n ->
  (forall i, i1 <= i < i2 + Z.of_nat V - 1 -> passes f body n genvec shift i) ->
  cpu w f body n genvec shift V i1 i2 = lattice_sum w f body n genvec shift i1 i2.
Proof.
  intros w f body n genvec shift V i1 i2 (Hn & Hz & Hs) HV Hi Hp. unfold cpu, start. destruct (start_L n genvec Hn Hz i1 Hi) as [-> _].
  destruct (cpu_ok w f body n genvec shift Hn Hz Hs V HV (Z.to_nat (i2 - i1)) i1 i2 (repeat 0%R V)) as (acc & -> & E); [lia|apply repeat_length|exact Hp|].
  rewrite E. assert (Z0 : forall k, sumR (repeat 0%R k) = 0%R) by (induction k as [|k IH]; cbn; [reflexivity|unfold sumR in IH; rewrite IH; ring]). rewrite Z0. apply plus_0_l.
Qed.
Theorem C73_cpu_fail : forall w f body n genvec shift V i1 i2 i, lattice n genvec shift -> (1 <= V)%nat -> 0 <= i1 <= n ->
  i1 <= i < i2 -> ~ passes f body n genvec shift i -> cpu w f body n genvec shift V i1 i2 = None.
Proof.
  intros w f body n genvec shift V i1 i2 i (Hn & Hz & Hs) HV H1 Hi Hp. unfold cpu, start. destruct (start_L n genvec Hn Hz i1 H1) as [-> _].
  rewrite (cpu_fail w f body n genvec shift Hn Hz Hs V HV (Z.to_nat (i2 - i1)) i1 i2 (repeat 0%R V) i); [reflexivity|lia|exact Hi|].
  unfold passes in Hp. destruct (body _); [exfalso; apply Hp; discriminate|reflexivity].
Qed.
(** If the range is a whole number of vectors, only the points of the range count. *)
Theorem C73_cpu_exact : forall w f body n genvec shift V i1 k, lattice n genvec shift -> (1 <= V)%nat -> 0 <= i1 <= n ->
  cpu w f body n genvec shift V i1 (i1 + Z.of_nat (k * V)) = lattice_sum w f body n genvec shift i1 (i1 + Z.of_nat (k * V)).
Proof.
  intros w f body n genvec shift V i1 k (Hn & Hz & Hs) HV H1.
  unfold cpu, start. destruct (start_L n genvec Hn Hz i1 H1) as [-> _]. set (i2 := i1 + _).
  assert (A : forall k fuel j acc, length acc = V -> i2 = j + Z.of_nat (k * V) -> (k <= fuel)%nat ->
    match cpu_loop w f body n genvec shift V fuel j i2 (L n genvec j) acc with Some a => Some (sumR a) | None => None end = plus (Some (sumR acc)) (S' w f body n genvec shift j i2)).
  { clearbody i2. clear k. intros k fuel. revert k.
    induction fuel as [|fuel IH]; intros k j acc La Ej Hk.
    - cbn [cpu_loop]. rewrite S_nil, plus_0_r by lia. reflexivity.
    - cbn [cpu_loop]. destruct (Z.ltb_spec j i2) as [C|C]; [|rewrite S_nil, plus_0_r by lia; reflexivity].
      destruct k as [|k]; [lia|]. assert (V2 : j + Z.of_nat V <= i2) by nia.
      destruct (lanes_spec w f body n genvec shift Hn Hz Hs V j j i2 0 ltac:(lia) C) as [I1 I2].
      destruct (Exists_dec (fun m => body (map f (point n genvec shift (j + Z.of_nat m))) = None) (seq 0 V)) as [X|X].
      { intros m. destruct (body _); [right; discriminate|left; reflexivity]. }
      + apply Exists_exists in X as (m & Im & E). apply in_seq in Im. rewrite I2 by (exists m; split; [lia|exact E]).
        rewrite (S_none w f body n genvec shift j i2 (j + Z.of_nat m)); [reflexivity|lia|]. unfold F, term. rewrite E. reflexivity.
      + destruct I1 as (vs & -> & Lv & Sv). { apply Forall_forall. intros m Im E. apply X. apply Exists_exists. exists m. split; assumption. }
        rewrite (iter_L n genvec Hn Hz), (IH k (j + Z.of_nat V)); [|rewrite map_length, combine_length; lia|lia|lia].
        rewrite (sum_add V) by congruence. change (Some (sumR acc + sumR vs)%R) with (plus (Some (sumR acc)) (Some (sumR vs))). rewrite Sv, <- plus_assoc. f_equal.
        rewrite Z.min_l by lia. symmetry. apply S_app. lia. }
  rewrite (A k); [|apply repeat_length|reflexivity|unfold i2; nia].
  assert (Z0 : forall k, sumR (repeat 0%R k) = 0%R) by (induction k0 as [|k0 IH]; cbn; [reflexivity|unfold sumR in IH; rewrite IH; ring]). rewrite Z0. apply plus_0_l.
Qed.
(** GPU worker: exact for every range, whatever the size of the batches *)
Theorem C73_cuda : forall w f body n genvec shift threads per_thread blocks i1 i2, lattice n genvec shift ->
  (2 <= threads * per_thread)%nat -> (1 <= blocks)%nat -> 0 <= i1 -> i2 <= n ->
  cuda w f body n genvec shift threads per_thread blocks i1 i2 = lattice_sum w f body n genvec shift i1 i2.
Proof.
  intros w f body n genvec shift th pt bl i1 i2 (Hn & Hz & Hs) H1 H2 H3 H4. unfold cuda.
  rewrite (cuda_loop_ok w f body n genvec shift Hn Hz Hs 1%nat (le_n 1) th pt H1 bl H2) by lia. apply plus_0_l.
Qed.
(** The range may be cut into pieces in any way and the pieces given to different workers. *)
Fixpoint pieces_of (a : Z) (cuts : list Z) (b : Z) : list (Z * Z) := match cuts with [] => [(a, b)] | c :: r => (a, c) :: pieces_of c r b end.
Fixpoint ascending (a : Z) (cuts : list Z) (b : Z) : Prop := match cuts with [] => a <= b | c :: r => a <= c /\ ascending c r b end.
Lemma asc_le cuts : forall a b, ascending a cuts b -> a <= b.
Proof. induction cuts as [|c r IH]; cbn; intros a b H; [exact H|]. destruct H as [H1 H2]. apply IH in H2. lia. Qed.
Theorem C73_tiles : forall w f body n genvec shift cuts i1 i2, ascending i1 cuts i2 ->
  sumO (map (fun p => lattice_sum w f body n genvec shift (fst p) (snd p)) (pieces_of i1 cuts i2)) = lattice_sum w f body n genvec shift i1 i2.
Proof.
  intros w f body n genvec shift cuts. induction cuts as [|c r IH]; intros i1 i2 H; cbn [pieces_of map].
  - rewrite sumO_cons. apply plus_0_r.
  - destruct H as [H1 H2]. rewrite sumO_cons, IH by exact H2. cbn [fst snd]. pose proof (asc_le r c i2 H2). symmetry. apply S_app. lia.
Qed.
Theorem C73_cuda_tiles : forall w f body n genvec shift threads per_thread blocks cuts i1 i2, lattice n genvec shift ->
  (2 <= threads * per_thread)%nat -> (1 <= blocks)%nat -> 0 <= i1 -> i2 <= n -> ascending i1 cuts i2 ->
  sumO (map (fun p => cuda w f body n genvec shift threads per_thread blocks (fst p) (snd p)) (pieces_of i1 cuts i2)) = lattice_sum w f body n genvec shift i1 i2.
Proof.
  intros w f body n genvec shift th pt bl cuts i1 i2 HL H1 H2 H3 H4 HA. rewrite <- (C73_tiles w f body n genvec shift cuts i1 i2 HA). f_equal. apply map_ext_in. intros [a b] Hin. cbn [fst snd].
  assert (B : forall cuts i1, 0 <= i1 -> ascending i1 cuts i2 -> In (a, b) (pieces_of i1 cuts i2) -> 0 <= a /\ b <= i2).
  { clear. induction cuts as [|c r IH]; cbn; intros i1 H0 HA Hin; [destruct Hin as [E|[]]; injection E as <- <-; lia|]. destruct HA as [A1 A2]. destruct Hin as [E|Hin].
    - injection E as <- <-. apply asc_le in A2. lia.
    - apply (IH c); [lia|exact A2|exact Hin]. }
  destruct (B cuts i1 H3 HA Hin) as [B1 B2]. apply C73_cuda; try assumption. lia.
Qed.
(** A lane past the end of the range has weight zero, but its sign checks are not masked: the result is NaN although every point of the range passes. *)
Theorem C73_cpu_extra_lane_refuted : exists w f body n genvec shift V i1 i2, lattice n genvec shift /\ (1 <= V)%nat /\ 0 <= i1 <= i2 /\ i2 <= n /\
  (forall i, i1 <= i < i2 -> passes f body n genvec shift i) /\ cpu w f body n genvec shift V i1 i2 = None /\ lattice_sum w f body n genvec shift i1 i2 <> None.
Proof.
  pose (body := fun x : list R => match x with [a] => if Rle_dec a (1 / 2) then Some 1%R else None | _ => None end).
  assert (HL : lattice 3 [1] [0%R]). { split; [lia|]. split; (apply Forall_cons; [|apply Forall_nil]); [lia|lra]. }
  assert (P : forall i, 0 <= i < 3 -> point 3 [1] [0%R] i = [(IZR i / 3)%R]).
  { intros i Hi. unfold point. cbn [combine map fst snd]. f_equal. rewrite Z.mul_1_r. rewrite (frac_unique _ 0); [cbn; ring|]. assert (0 <= IZR i < 3)%R by (split; [apply (IZR_le 0)|apply IZR_lt]; lia). cbn. lra. }
  assert (Q : forall i, 0 <= i < 2 -> passes (fun x => x) body 3 [1] [0%R] i).
  { intros i Hi. unfold passes. rewrite P by lia. cbn. assert (IZR i <= 1)%R by (apply (IZR_le i 1); lia). destruct (Rle_dec (IZR i / 3) (1 / 2)); [discriminate|lra]. }
  exists (fun _ => 1%R), (fun x => x), body, 3, [1], [0%R], 4%nat, 0, 2. split; [exact HL|]. split; [lia|]. split; [lia|]. split; [lia|]. split; [exact Q|].
  destruct HL as (Hn & Hz & Hs). split.
  - unfold cpu, start. destruct (start_L 3 [1] Hn Hz 0 ltac:(lia)) as [-> _]. change (Z.to_nat (2 - 0)) with 2%nat. cbn [cpu_loop]. change (0 <? 2) with true. cbv iota.
    destruct (lanes_spec (fun _ => 1%R) (fun x => x) body 3 [1] [0%R] Hn Hz Hs 4 0 0 2 0 ltac:(lia) ltac:(lia)) as [_ I2]. rewrite I2; [reflexivity|].
    exists 2%nat. split; [lia|]. rewrite P by (cbn; lia). cbn. destruct (Rle_dec (2 / 3) (1 / 2)); [lra|reflexivity].
  - rewrite <- (C73_cuda (fun _ => 1%R) (fun x => x) body 3 [1] [0%R] 1 2 1 0 2); [|split; [exact Hn|split; assumption]|lia|lia|lia|lia].
    rewrite C73_cuda; [|split; [exact Hn|split; assumption]|lia|lia|lia|lia]. unfold lattice_sum, range. cbn [Z.to_nat seq map]. unfold term. change (Z.to_nat (2 - 0)) with 2%nat. cbn [seq map].
    pose proof (Q 0 ltac:(lia)) as Q0. pose proof (Q 1 ltac:(lia)) as Q1. unfold passes in Q0, Q1. cbn [Z.of_nat Z.add]. cbn [Pos.of_succ_nat].
    destruct (body (map (fun x => x) (point 3 [1] [0%R] 0))); [|congruence]. destruct (body (map (fun x => x) (point 3 [1] [0%R] 1))); [|congruence]. discriminate.
Qed.
(** ** QMC library *)
Definition points_sum (func : list R -> R) n genvec shift l : R := sumR (map (fun i => func (point n genvec shift i)) l).
(** work package [i] of [T]: the points with index [i] modulo [T], each once *)
Theorem C73_package : forall func n genvec shift T i r, 0 < n < 2 ^ 52 -> Forall (fun z => 0 <= z < n) genvec -> 0 <= i < T ->
  package n genvec shift func i T r = (r + points_sum func n genvec shift (filter (fun o => Z.eqb (o mod T) i) (range 0 n)))%R.
Proof. intros func n genvec shift T i r Hn Hz Hi. apply (package_ok n genvec shift func Hn Hz T ltac:(lia) i Hi r). Qed.
(** all packages together: every point of the lattice once *)
Theorem C73_packages_cover : forall func n genvec shift T, 0 < n < 2 ^ 52 -> Forall (fun z => 0 <= z < n) genvec -> 1 <= T ->
  sumR (map (fun i => package n genvec shift func i T 0) (range 0 T)) = points_sum func n genvec shift (range 0 n).
Proof.
  intros func n genvec shift T Hn Hz HT. unfold points_sum. rewrite <- (cover (fun i => func (point n genvec shift i)) T (range 0 n) HT). f_equal. apply map_ext_in. intros i Hi. apply in_range in Hi.
  rewrite C73_package by assumption. unfold points_sum, mine. ring.
Qed.
(** batching changes nothing *)
Theorem C73_batching : forall func n genvec shift T i r, 0 < n < 2 ^ 52 -> 0 <= i < T ->
  package_batched n genvec shift func i T r = package n genvec shift func i T r.
Proof. intros func n genvec shift T i r Hn Hi. apply (batched_ok n genvec shift func Hn T ltac:(lia) i Hi r). Qed.
(** ** Example *)
Lemma ex_lattice : lattice 5 [1; 2] [(1 / 2)%R; 0%R].
Proof. split; [lia|]. split; (apply Forall_cons; [|apply Forall_cons; [|apply Forall_nil]]); try lia; lra. Qed.
Example C73_ex : cuda (fun _ => 1%R) (fun x => x) (fun x => Some (hd 0%R x)) 5 [1; 2] [(1 / 2)%R; 0%R] 2 1 1 1 4 = Some (7 / 10 + 9 / 10 + 1 / 10)%R /\
  cpu (fun _ => 1%R) (fun x => x) (fun x => Some (hd 0%R x)) 5 [1; 2] [(1 / 2)%R; 0%R] 2 1 4 = Some (7 / 10 + 9 / 10 + 1 / 10)%R.
Proof.
  assert (A : lattice_sum (fun _ => 1%R) (fun x => x) (fun x => Some (hd 0%R x)) 5 [1; 2] [(1 / 2)%R; 0%R] 1 4 = Some (7 / 10 + 9 / 10 + 1 / 10)%R).
  { unfold lattice_sum, range. change (Z.to_nat (4 - 1)) with 3%nat. cbn [seq map]. unfold term, point. cbn [combine map fst snd hd prodR fold_right].
    cbn [Z.of_nat Pos.of_succ_nat Z.add Pos.add Pos.succ]. rewrite !Z.mul_1_r. rewrite (frac_unique (1 / 5 + 1 / 2) 0), (frac_unique (2 / 5 + 1 / 2) 0), (frac_unique (3 / 5 + 1 / 2) 1) by (cbn; lra). cbn. f_equal. field. }
  split; rewrite <- A; [apply C73_cuda; try lia; apply ex_lattice|]. apply C73_cpu_sum; [apply ex_lattice|lia|lia|]. intros i _. unfold passes. discriminate.
Qed.
