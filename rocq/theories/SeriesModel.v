(** Model of /repo/pySecDecContrib/util/secdecutil/series.hpp, class template Series: constructor (583-600), add (126-173),
    subtract (76-121), multiply_series (176-221), multiply_scalar (224-238), division_series_by_series (256-337),
    division_series_by_scalar (340-352), unary minus (436-444), comparison (412-434), operators with scalars (484-560).
    Simplifications: the coefficients are elements of a field (no nested Series, no rounding); [int] is unbounded;
    a thrown exception is a value. *)
From Coq Require Export String.
From Verif Require Export FieldBase.
Local Open Scope Z_scope.

Inductive thrown (A : Type) : Type := Ok (a : A) | ParameterMismatch | InvalidArgument | OutOfRange.
Arguments Ok {A} a. Arguments ParameterMismatch {A}. Arguments InvalidArgument {A}. Arguments OutOfRange {A}.

Section Series.
Variable F : Fld.
Record series := mkS { omin : Z; omax : Z; cont : list F; trunc : bool; par : string }.
(** 583-600: the constructor *)
Definition make (a b : Z) (c : list F) (t : bool) (p : string) : thrown series :=
  if Z.ltb b a then InvalidArgument else if Z.eqb (Z.of_nat (length c)) (b - a + 1) then Ok (mkS a b c t p) else InvalidArgument.
(** 401-408 *)
Definition has_term (s : series) (k : Z) : bool := (omin s <=? k) && (k <=? omax s).
(** 383: [at]; only used for existing terms *)
Definition at_ (s : series) (k : Z) : F := nth (Z.to_nat (k - omin s)) (cont s) f0.
(** [for (int i = a; i < b + 1; i++)] *)
Definition loop (a b : Z) : list Z := map (fun n => a + Z.of_nat n) (seq 0 (Z.to_nat (b + 1 - a))).
(** the order range of sums, 83-105 and 133-155 *)
Definition sum_max (s t : series) : Z :=
  let m := Z.max (omax s) (omax t) in
  let m := if trunc s then (if omax s <? m then omax s else m) else m in
  if trunc t then (if omax t <? m then omax t else m) else m.
Local Open Scope fld_scope.
(** 126-173 *)
Definition add (s t : series) : thrown series :=
  if negb (String.eqb (par s) (par t)) then ParameterMismatch
  else make (Z.min (omin s) (omin t)) (sum_max s t)
         (map (fun k => if has_term s k && has_term t k then at_ s k + at_ t k
                        else if has_term s k then at_ s k
                        else if has_term t k then at_ t k
                        else 0) (loop (Z.min (omin s) (omin t)) (sum_max s t)))
         (trunc s || trunc t) (par s).
(** 76-121 *)
Definition sub (s t : series) : thrown series :=
  if negb (String.eqb (par s) (par t)) then ParameterMismatch
  else make (Z.min (omin s) (omin t)) (sum_max s t)
         (map (fun k => if has_term s k && has_term t k then at_ s k - at_ t k
                        else if has_term s k then at_ s k
                        else if has_term t k then - at_ t k
                        else 0) (loop (Z.min (omin s) (omin t)) (sum_max s t)))
         (trunc s || trunc t) (par s).
(** 436-444 *)
Definition neg (s : series) : thrown series :=
  make (omin s) (omax s) (map (fun k => - at_ s k) (loop (omin s) (omax s))) (trunc s) (par s).
(** 224-238 *)
Definition scale (from_left : bool) (s : series) (c : F) : thrown series :=
  make (omin s) (omax s) (map (fun k => if from_left then c * at_ s k else at_ s k * c) (loop (omin s) (omax s))) (trunc s) (par s).
(** 340-352 *)
Definition unscale (s : series) (c : F) : thrown series := make (omin s) (omax s) (map (fun a => a / c) (cont s)) (trunc s) (par s).
(** 484-496 and 503-515: a scalar is an exact series with the term of order 0 *)
Definition scalar (c : F) (p : string) : series := mkS 0 0 [c] false p.
(** 188-203 *)
Definition mul_max (s t : series) : Z :=
  let m := (omax s + omax t)%Z in
  let m := if trunc s then Z.min m (omax s + omin t) else m in
  if trunc t then Z.min m (omin s + omax t) else m.
(** [content.at(i) += v] *)
Fixpoint bump (i : nat) (v : F) (c : list F) : list F :=
  match c, i with [], _ => [] | x :: r, O => (x + v) :: r | x :: r, S j => x :: bump j v r end.
(** 206-217: the body of the double loop *)
Definition mul_body (s t : series) (lo hi : Z) (c : list F) (ij : Z * Z) : list F :=
  let k := (fst ij + snd ij)%Z in
  if (lo <=? k)%Z && (k <=? hi)%Z && has_term s (fst ij) && has_term t (snd ij)
  then (if (Z.to_nat (k - lo) <? length c)%nat then bump (Z.to_nat (k - lo)) (at_ s (fst ij) * at_ t (snd ij)) c
        else c ++ [at_ s (fst ij) * at_ t (snd ij)])
  else c.
(** 176-221 *)
Definition mul (s t : series) : thrown series :=
  if negb (String.eqb (par s) (par t)) then ParameterMismatch
  else let lo := (omin s + omin t)%Z in let hi := mul_max s t in
       make lo hi (fold_left (mul_body s t lo hi) (flat_map (fun i => map (fun j => (i, j)) (loop (omin t) (omax t))) (loop (omin s) (omax s))) [])
         (trunc s || trunc t) (par s).
(** 268-275 *)
Definition div_trunc (s t : series) : bool := if (omin t =? omax t)%Z then trunc s || trunc t else true.
Definition div_max (s t : series) : Z :=
  let a := (omin s - omin t)%Z in
  let n1 := Z.of_nat (length (cont s)) in let n2 := Z.of_nat (length (cont t)) in
  let m := (a + Z.max n1 n2 - 1)%Z in
  let m := if trunc s then Z.min m (a + n1 - 1) else m in
  if trunc t then Z.min m (a + n2 - 1) else m.
(** 300-329: the coefficient number [i >= 1]; [tmp] keeps its old value if nothing is assigned *)
Definition div_tmp (c1 c2 c : list F) (tmp : F) (i : nat) : F :=
  let start := if (i <? length c1)%nat then Some (nth i c1 0) else None in
  match fold_left (fun acc j => if (i - j <? length c2)%nat
                                then Some (match acc with Some v => v - nth j c 0 * nth (i - j) c2 0 | None => - (nth j c 0 * nth (i - j) c2 0) end)
                                else acc) (seq 0 i) start with
  | Some v => v / nth 0 c2 0
  | None => tmp / nth 0 c2 0
  end.
(** 290-333 *)
Definition div_body (c1 c2 : list F) (st : list F * F) (i : nat) : list F * F :=
  match i with
  | O => (fst st ++ [snd st], snd st)
  | _ => let tmp := div_tmp c1 c2 (fst st) (snd st) i in (fst st ++ [tmp], tmp)
  end.
(** 256-337 *)
Definition div (s t : series) : thrown series :=
  if negb (String.eqb (par s) (par t)) then ParameterMismatch
  else let lo := (omin s - omin t)%Z in let hi := div_max s t in
       make lo hi (fst (fold_left (div_body (cont s) (cont t)) (seq 0 (Z.to_nat (hi - lo + 1))) ([], nth 0 (cont s) 0 / nth 0 (cont t) 0)))
         (div_trunc s t) (par s).
(** 412-434 *)
Definition equal (s t : series) : bool :=
  String.eqb (par s) (par t) && (omin s =? omin t)%Z && (omax s =? omax t)%Z && Bool.eqb (trunc s) (trunc t) &&
  forallb (fun i => feqb (nth i (cont s) 0) (nth i (cont t) 0)) (seq 0 (Z.to_nat (omax s - omin s + 1))).
End Series.
Arguments mkS {F}. Arguments omin {F}. Arguments omax {F}. Arguments cont {F}. Arguments trunc {F}. Arguments par {F}.
Arguments make {F}. Arguments has_term {F}. Arguments at_ {F}. Arguments sum_max {F}. Arguments mul_max {F}. Arguments div_max {F}. Arguments div_trunc {F}.
Arguments add {F}. Arguments sub {F}. Arguments neg {F}. Arguments scale {F}. Arguments unscale {F}. Arguments scalar {F}. Arguments mul {F}. Arguments div {F}. Arguments equal {F}.
Arguments bump {F}. Arguments mul_body {F}. Arguments div_tmp {F}. Arguments div_body {F}.
