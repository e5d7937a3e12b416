(** The shifted lattice rule. *)
From Verif Require Export KernModel.
Local Open Scope Z_scope.
(** fractional part of i z_j / n + s_j *)
Definition frac (x : R) : R := (x - IZR (Int_part x))%R.
Definition point (n : Z) (genvec : list Z) (shift : list R) (i : Z) : list R := map (fun q => frac (IZR (i * fst q) / IZR n + snd q)) (combine genvec shift).
(** contribution of a point: integrand after the substitution, times the weight *)
Definition term (w f : R -> R) (body : list R -> option R) (x : list R) : option R :=
  match body (map f x) with Some v => Some (prodR (map w x) * v)%R | None => None end.
Definition range (i1 i2 : Z) : list Z := map (fun k => i1 + Z.of_nat k) (seq 0 (Z.to_nat (i2 - i1))).
(** sum over the points with i1 <= i < i2; NaN if one of them fails *)
Definition lattice_sum (w f : R -> R) (body : list R -> option R) (n : Z) (genvec : list Z) (shift : list R) (i1 i2 : Z) : option R :=
  sumO (map (fun i => term w f body (point n genvec shift i)) (range i1 i2)).
