(** geometric_decomposition; the fan covers the unit cube without overlap. *)
From Verif Require Export GeoProofs5 GeoReal.
From Verif Require Import DetTrans.
Local Open Scope nat_scope.

Section GeoDec.
Variable F : Fld.
Local Open Scope fld_scope.
Hypothesis char0 : forall k, @natF F (S k) <> 0.

Lemma removelast_length {A} (l : list A) k : length l = S k -> length (removelast l) = k.
Proof. destruct l as [|x l] using rev_ind; [discriminate|]. rewrite removelast_last, app_length. cbn. lia. Qed.
Lemma geo_correct n (s : sector F) idx pts vertices facets tri e0 c0 o :
  scast s <> [] -> swf n s -> sjac s = mkPoly n [(e0, c0)] -> idx <> [] -> NoDup idx -> Forall (fun k => (k < n)%nat) idx ->
  Forall (fun q => distinct_terms (restrict_poly idx (snd q))) (scast s) ->
  convex_hull (map (fun q => restrict_poly idx (snd q)) (scast s)) = Some pts ->
  Forall (fun f => length f = S (length idx) /\ forall v, In v pts -> (0 <= dotZ v (removelast f) + last f 0)%Z) facets ->
  NoDup (map (@removelast Z) facets) -> incl vertices pts ->
  (forall cone, Forall (fun rays => length rays = length idx /\ incl rays cone) (tri cone)) ->
  In o (geometric_decomposition s idx vertices facets tri) ->
  exists v rays s', In v vertices /\ length rays = length idx /\
    Forall (fun r => exists f, In f facets /\ r = removelast f /\ (dotZ v r + last f 0 = 0)%Z) rays /\
    o = Some s' /\ is_matrix (length idx) (length idx) (transposeZ (length idx) rays) /\
    geo_transformed F n idx (transposeZ (length idx) rays) (zF (abs_det (transposeZ (length idx) rays))) s s' /\ standard_form idx s'.
Proof.
  intros Hne Hs Hj Hie Hn Hr Hd Hpts Hfac Hnd Hvp Htri H. unfold geometric_decomposition in H. apply in_flat_map in H as (vi & Hvi & H).
  unfold vertex_incidence_lists in Hvi. apply in_map_iff in Hvi as (v & <- & Hv). cbn [fst snd] in H.
  set (normals := map (@removelast Z) facets) in *.
  set (inc := filter (fun k => Z.eqb (dotZ v (removelast (nth k facets [])) + last (nth k facets []) 0%Z) 0) (seq 0 (length facets))) in *.
  assert (Hinc : Forall (fun k => (k < length facets)%nat /\ (dotZ v (removelast (nth k facets [])) + last (nth k facets []) 0 = 0)%Z) inc).
  { apply Forall_forall. intros k Hk. apply filter_In in Hk as [Hk E]. apply in_seq in Hk. split; [lia|]. apply Z.eqb_eq, E. }
  assert (HnL : length normals = length facets) by apply map_length.
  assert (Hnth : forall k, nth k normals [] = removelast (nth k facets [])) by (intros k; exact (map_nth (@removelast Z) facets [] k)).
  assert (Hnl : Forall (fun r => length r = length idx) normals).
  { apply Forall_map. eapply Forall_impl; [|exact Hfac]. intros f [Hf _]. apply removelast_length, Hf. }
  assert (Hik : (0 < length idx)%nat) by (destruct idx; [congruence|cbn; lia]).
  assert (Core : forall cidx, length cidx = length idx -> incl cidx inc -> exists s', make_sector_geo s idx (length facets) (transposeZ (length idx) normals) cidx (map (fun k => nth k normals []) cidx) = Some s' /\
     Forall (fun r => exists f, In f facets /\ r = removelast f /\ (dotZ v r + last f 0 = 0)%Z) (map (fun k => nth k normals []) cidx) /\
     is_matrix (length idx) (length idx) (transposeZ (length idx) (map (fun k => nth k normals []) cidx)) /\
     geo_transformed F n idx (transposeZ (length idx) (map (fun k => nth k normals []) cidx)) (zF (abs_det (transposeZ (length idx) (map (fun k => nth k normals []) cidx)))) s s' /\ standard_form idx s').
  { intros cidx HcL Hsub. assert (Hc : Forall (fun k => (k < length facets)%nat /\ (dotZ v (removelast (nth k facets [])) + last (nth k facets []) 0 = 0)%Z) cidx).
    { apply Forall_forall. intros k Hk. rewrite Forall_forall in Hinc. apply Hinc, Hsub, Hk. }
    set (rays := map (fun k => nth k normals []) cidx).
    assert (HrL : length rays = length idx) by (unfold rays; rewrite map_length; exact HcL).
    assert (Hrl : Forall (fun r => length r = length idx) rays).
    { unfold rays. apply Forall_map. eapply Forall_impl; [|exact Hc]. intros k [Hk _]. rewrite Forall_forall in Hnl. apply Hnl, nth_In. lia. }
    assert (Hcr : Forall (fun c => (c < length normals)%nat) cidx) by (eapply Forall_impl; [|exact Hc]; intros k [Hk _]; lia).
    assert (HT : is_matrix (length idx) (length facets) (transposeZ (length idx) normals)) by (rewrite <- HnL; apply transpose_matrix).
    assert (HC : is_matrix (length idx) (length idx) (transposeZ (length idx) rays)) by (rewrite <- HrL at 2; apply transpose_matrix).
    assert (Hc' : Forall (fun c => (c < length facets)%nat) cidx) by (eapply Forall_impl; [|exact Hc]; intros k [Hk _]; exact Hk).
    destruct (make_sector_geo_correct F n s idx (length facets) (transposeZ (length idx) normals) cidx rays e0 c0 Hs Hj Hn Hr HT HcL Hc') as (s' & Es & Hg).
    exists s'. split; [exact Es|]. split; [|split; [exact HC|split]].
    - unfold rays. apply Forall_map. eapply Forall_impl; [|exact Hc]. intros k [Hk E0]. exists (nth k facets []). rewrite Hnth. split; [apply nth_In, Hk|]. split; [reflexivity|exact E0].
    - rewrite (sub_transpose (length idx) normals cidx Hcr) in Hg. fold rays in Hg. rewrite (abs_det_transpose (length idx) rays Hik (conj HrL Hrl)). exact Hg.
    - destruct (make_sector_geo_shape F n s idx (length facets) (transposeZ (length idx) normals) cidx rays e0 c0 Hs Hj Hn Hr HT HcL Hc') as (j & Es2 & _ & _).
      rewrite Es in Es2. injection Es2 as ->. rewrite (sub_transpose (length idx) normals cidx Hcr). fold rays.
      eapply (standard_from_min F n idx (transposeZ (length idx) rays) s); [exact Hs|exact Hn|exact Hr|exact HC|reflexivity|].
      eapply (geo_min F char0 n s idx pts v cidx facets rays); try eassumption; [apply Hvp, Hv|]. unfold rays. apply map_ext. exact Hnth. }
  destruct (Nat.eqb_spec (length inc) (length idx)) as [EL|EL].
  - destruct H as [<-|[]]. destruct (Core inc EL (incl_refl _)) as (s' & E1 & E2 & E3 & E4 & E5). exists v, (map (fun k => nth k normals []) inc), s'.
    split; [exact Hv|]. split; [rewrite map_length; exact EL|]. auto.
  - apply in_map_iff in H as (rays & <- & Hrays). specialize (Htri (map (fun k => nth k normals []) inc)). rewrite Forall_forall in Htri. destruct (Htri rays Hrays) as [HL Hsub].
    assert (Hin : forall r, In r rays -> In r normals).
    { intros r Hi. apply Hsub in Hi. apply in_map_iff in Hi as (k & <- & Hk). rewrite Forall_forall in Hinc. apply nth_In. rewrite HnL. apply Hinc, Hk. }
    assert (Hrr : map (fun k => nth k normals []) (map (fun r => find_row r normals) rays) = rays).
    { rewrite map_map. rewrite <- (map_id rays) at 2. apply map_ext_in. intros r Hi. apply find_row_in, Hin, Hi. }
    assert (Hsub' : incl (map (fun r => find_row r normals) rays) inc).
    { intros k Hk. apply in_map_iff in Hk as (r & <- & Hi). pose proof (find_row_in r normals (Hin r Hi)) as [Hk1 Hk2]. apply Hsub in Hi. apply in_map_iff in Hi as (k & Ek & Hk).
      assert (Ekk : find_row r normals = k).
      { assert (Hkn : (k < length normals)%nat) by (rewrite Forall_forall in Hinc; rewrite HnL; apply Hinc, Hk). apply (proj1 (NoDup_nth normals []) Hnd); [exact Hk1|exact Hkn|]. rewrite Hk2, Ek. reflexivity. }
      rewrite Ekk. exact Hk. }
    destruct (Core (map (fun r => find_row r normals) rays)) as (s' & E1 & E2 & E3 & E4 & E5); [rewrite map_length; exact HL|exact Hsub'|].
    rewrite Hrr in E1, E2, E3, E4. exists v, rays, s'. auto 8.
Qed.
End GeoDec.
