(** Model of the names of the generated source files: /repo/pySecDec/code_writer/make_package.py:577-619 (_make_sector_order_names,
    _make_sector_cpp_files, _make_sector_distsrc_files, _make_sector_mma_files) and of the names of derivatives, 620-634 (_derivative_muliindex_to_name).
    Simplifications: the order of the entries (sorted by the orders) and the Makefile's line continuations between the names are not modelled. *)
From Verif Require Export TextModel TextConvModel.
Local Open Scope list_scope.
(** 579: the part of the name with the orders, ["_".join(str(pol-hi) ...).replace("-", "n")] *)
Definition order_name (ks : list Z) : text := map (fun c => if Ascii.eqb c "-" then "n"%char else c) (join (txt "_") (map zdec ks)).
(** 577-580: the keys of the dictionary (each once) with their values *)
Definition sector_order_names (sector_index : Z) (regulator_powers : list (list Z)) (highest_poles : list Z) : list (list Z * (Z * text)) :=
  map (fun ks => (ks, (sector_index, order_name ks)))
      (nodup (list_eq_dec Z.eq_dec) (map (fun p => map (fun ph => (fst ph - snd ph)%Z) (combine p highest_poles)) regulator_powers)).
Definition file_of (prefix extension : text) (so : Z * text) : text := prefix ++ zdec (fst so) ++ txt "_" ++ snd so ++ extension.
(** 591-597 *)
Definition sector_cpp_files (sector_index : Z) (names : list (list Z * (Z * text))) (contour_deformation : bool) : list text :=
  let orders := map snd names in
  [txt "src/sector_" ++ zdec sector_index ++ txt ".cpp"] ++ map (file_of (txt "src/sector_") (txt ".cpp")) orders ++
  (if contour_deformation then map (file_of (txt "src/contour_deformation_sector_") (txt ".cpp")) orders ++ map (file_of (txt "src/optimize_deformation_parameters_sector_") (txt ".cpp")) orders else []).
(** 605-608 *)
Definition sector_distsrc_files (names : list (list Z * (Z * text))) : list text :=
  let orders := map snd names in map (file_of (txt "distsrc/sector_") (txt ".cpp")) orders ++ map (file_of (txt "distsrc/sector_") (txt ".cu")) orders.
(** 616-618 *)
Definition sector_mma_files (names : list (list Z * (Z * text))) : list text := map (file_of (txt "mma/sector_") (txt ".m")) (map snd names).
(** 620-634 *)
Definition derivative_name (basename : text) (multiindex : list nat) : text :=
  repeat "d"%char (list_sum multiindex) ++ basename ++ concat (map (fun id => concat (repeat (txt "d" ++ zdec (Z.of_nat (fst id))) (snd id))) (combine (seq 0 (length multiindex)) multiindex)).
