(** Model of the choice of the deformation parameters: sector_container.hpp. *)
From Coq Require Import Reals.
From Verif Require Import PolyModel PolySpec CplxField DefModel.
From Coquelicot Require Import Coquelicot.
Local Open Scope R_scope.
(** write_contour_deformation.frm:272-286: 1 / Abs(Re(x_k * (1-x_k) * dF_dx_k)); a division by zero gives infinity, here [None] *)
Definition maximal_parameter (F : cpoly) (x : list R) (k : nat) : option R :=
  let d := nth k x 0 * (1 - nth k x 0) * fst (peval (pderive F k) (map RtoC x) : C) in
  if Req_EM_T d 0 then None else Some (1 / Rabs d).
(** sector_container.hpp:172-180: one component of the running minimum; both comparisons are false for infinity *)
Definition update_parameter (minimum maximum : R) (opt : R) (temp : option R) : R :=
  match temp with
  | None => opt
  | Some t =>
      if Rle_dec minimum t then
        if Rle_dec t maximum then (if Rlt_dec t opt then t else opt)
        else if Rlt_dec t minimum then minimum else opt
      else if Rlt_dec t minimum then minimum else opt
  end.
(** sector_container.hpp:168-181: the loop over the samples (first phase) *)
Definition presample_minimum (n : nat) (F : cpoly) (minimum maximum : R) (samples : list (list R)) (opt : list R) : list R :=
  fold_left (fun opt x => map (fun j => update_parameter minimum maximum (nth j opt 0) (maximal_parameter F x j)) (seq 0 n)) samples opt.
(** sector_container.hpp:210-222 [contour_deformation_polynomial_passes_sign_check]: the imaginary part of the polynomial at the deformed point
    against that at the undeformed one *)
Definition passes_sign_check (n : nat) (F : cpoly) (lam x : list R) : bool :=
  if Rle_dec (snd (peval F (deformed_point n F lam x) : C)) (snd (peval F (deformed_point n F (repeat 0 n) x) : C)) then true else false.
(** sector_container.hpp:193-198: the while loop for one sample, [None] when [fuel] is used up *)
Fixpoint decrease_loop (fuel : nat) (n : nat) (F : cpoly) (factor : R) (lam x : list R) : option (list R) :=
  if passes_sign_check n F lam x then Some lam
  else match fuel with O => None | S f => decrease_loop f n F factor (map (fun l => l * factor) lam) x end.
(** sector_container.hpp:190-200: the loop over the samples (second phase) *)
Fixpoint decrease_all (fuel : nat) (n : nat) (F : cpoly) (factor : R) (samples : list (list R)) (lam : list R) : option (list R) :=
  match samples with
  | nil => Some lam
  | x :: rest => match decrease_loop fuel n F factor lam x with None => None | Some lam' => decrease_all fuel n F factor rest lam' end
  end.
(** sector_container.hpp:130-208 [optimize_deformation_parameters]; [samples] is the Sobol sequence, the same in both phases.  Not modelled:
    the error for more than 40 variables, [ResultInfo], floating point rounding and NaN. *)
Definition optimize_deformation_parameters (fuel : nat) (n : nat) (F : cpoly) (maximum minimum factor : R) (samples : list (list R)) : option (list R) :=
  match samples with
  | nil => Some (repeat maximum n)
  | _ => decrease_all fuel n F factor samples (presample_minimum n F minimum maximum samples (repeat maximum n))
  end.
