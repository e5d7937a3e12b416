(** Model of /repo/pySecDec/expansion.py 31-227, 269-290 (expand_Taylor, expand_singular), /repo/pySecDec/misc.py:389-419 (flatten) and
    /repo/pySecDec/algebra.py:770-788 (Polynomial.denest).
    Simplifications: those of ExprModel; orders are integers (the assertion of 51-52 rejects other numbers). *)
From Verif Require Import ExprModel.
Local Open Scope R_scope.

Inductive result (A : Type) := NoFuel | AssertionError | TypeError | OrderError | IndexError | Done (a : A).
Arguments NoFuel {A}. Arguments AssertionError {A}. Arguments TypeError {A}. Arguments OrderError {A}. Arguments IndexError {A}. Arguments Done {A} a.
Definition bind {A B} (r : result A) (f : A -> result B) : result B :=
  match r with NoFuel => NoFuel | AssertionError => AssertionError | TypeError => TypeError | OrderError => OrderError | IndexError => IndexError | Done a => f a end.
Definition lift {A} (o : option A) : result A := match o with None => NoFuel | Some a => Done a end.

(** ** misc.py:389-419 [flatten]; depth None is the default np.inf *)
Fixpoint flatten (depth : option nat) (e : expr) {struct e} : expr :=
  match e with
  | Pol p | EPol p _ | LPol p =>          (* 407: any instance of Polynomial is accepted; 419: the result is a Polynomial *)
      Pol (flat_map (fun t => match t with (c, k) =>
             match c with
             | Pol q => (* 411-415 *)
                 map (fun u => (fst u, addk k (snd u)))
                   (match depth with
                    | None => coeffs_of (flatten None c)
                    | Some (S (S d)) => coeffs_of (flatten (Some (S d)) c)
                    | Some _ => q
                    end)
             | _ => [(c, k)] (* 417-418 *)
             end end) p)
  | _ => e (* 407: AssertionError *)
  end.
(** ** algebra.py:770-788 [denest]; all polynomials have the same symbols; [n] is the fuel of simplify *)
Fixpoint denest (nv n : nat) (e : expr) {struct e} : option expr :=
  match e with
  | Pol p | EPol p _ | LPol p =>
      match option_all (map (fun t => match t with (c, k) =>
              match c with
              | Pol _ | EPol _ _ | LPol _ => (* 778-782 *)
                  match denest nv n c with Some d => Some (map (fun u => (fst u, addk k (snd u))) (coeffs_of d)) | None => None end
              | _ => Some [(c, k)] (* 783-785 *)
              end end) p) with
      | None => None
      | Some l => simplify nv n (Pol (concat l)) (* 786-788 *)
      end
  | _ => None
  end.

Section Exp.
Variable nv : nat.
Variable zero_test : expr -> bool.
Variable n : nat.    (* fuel of simplify and derive *)
Definition row (j : nat) (k : Z) : list Z := setk j k (zeros nv).
(** ** expansion.py:31-68 [_expand_Taylor_step] *)
(** 62-66; [i] is order_i, [inv] is inverse_i_factorial before the pass *)
Fixpoint taylor_loop (j count i : nat) (inv : R) (e : expr) : option (list expr) :=
  match count with
  | O => Some []
  | S count =>
      let inv := inv / (INR i + 1) in
      match simplify nv n e with
      | None => None
      | Some s => match derive nv zero_test j n s with
                  | None => None
                  | Some e => match replace nv j 0 e, taylor_loop j count (S i) inv e with
                              | Some c, Some r => Some (mul nv c (Num inv) :: r)
                              | _, _ => None
                              end
                  end
      end
  end.
Definition taylor_step (e : expr) (j : nat) (order : Z) : result terms_t :=
  if (order <? 0)%Z then AssertionError
  else match replace nv j 0 e, taylor_loop j (Z.to_nat order) 0 1 e with
       | Some c, Some r => Done (combine (c :: r) (map (fun i => row j (Z.of_nat i)) (seq 0 (S (Z.to_nat order)))))
       | _, _ => NoFuel
       end.

(** ** expansion.py:70-186 [_expand_singular_step] *)
(** 100-121: the numerator and the denominator *)
Fixpoint gather (fs : list expr) (num den : terms_t) : result (terms_t * terms_t) :=
  match fs with
  | [] => Done (num, den)
  | Pol p :: r => gather r (coeffs_of (mul nv (Pol num) (Pol p))) den
  | EPol p a :: r => if is_const (-1) a then gather r num (coeffs_of (mul nv (Pol den) (Pol p))) else TypeError
  | _ :: _ => TypeError
  end.
Definition rational (e : expr) : result (terms_t * terms_t) :=
  match e with Prod fs => gather fs [(Num 1, zeros nv)] [(Num 1, zeros nv)] | _ => TypeError end.
(** [min(p.expolist[:,index])]; a polynomial has at least one term *)
Definition min_exp (j : nat) (p : terms_t) : Z :=
  match p with [] => 0%Z | t :: r => fold_left (fun m u => Z.min m (getk j (snd u))) r (getk j (snd t)) end.
Definition pull (j : nat) (m : Z) (p : terms_t) : terms_t := map (fun t => (fst t, setk j (getk j (snd t) - m) (snd t))) p.
Definition poly_derive (j : nat) (p : terms_t) : terms_t := match pol_derive nv j (derive nv zero_test j n) p with Some q => coeffs_of q | None => [] end.
(** 134-142 [derive_polyrational] *)
Definition sub_pol (p q : terms_t) : terms_t := coeffs_of (add nv (Pol p) (Pol (map (fun t => (mul nv (fst t) (Num (-1)), snd t)) q))).
Definition mul_pol (p q : terms_t) : terms_t := coeffs_of (mul nv (Pol p) (Pol q)).
Definition derive_num (j : nat) (num den : terms_t) : terms_t := sub_pol (mul_pol (poly_derive j num) den) (mul_pol (poly_derive j den) num).
(** [p.replace(index, 0).simplify()] *)
Definition low (j : nat) (p : terms_t) : option terms_t :=
  match replace nv j 0 (Pol p) with Some q => match simplify nv n q with Some (Pol r) => Some r | _ => None end | None => None end.
(** 158-182: [count] passes; [i] the pass, [f] the factorial before it, [zs] the zero coefficients kept back *)
Fixpoint singular_loop (j count i : nat) (f : R) (num den : terms_t) (zs : list expr) : option (list expr) :=
  match count with
  | O => Some []
  | S count =>
      let f := f * (INR i + 1) in
      let num' := derive_num j num den in let den' := mul_pol den den in
      match low j num' with
      | None => None
      | Some ln =>
          if all_coeffs 0 ln then singular_loop j count (S i) f num' den' (zs ++ [Prod [Pol ln]])
          else match low j den', singular_loop j count (S i) f num' den' [] with
               | Some ld, Some r => Some (zs ++ Prod [Pol ln; EPol (map (fun t => (mul nv (fst t) (Num f), snd t)) ld) (Num (-1))] :: r)
               | _, _ => None
               end
      end
  end.
Definition singular_step (e : expr) (j : nat) (order : Z) : result terms_t :=
  bind (rational e) (fun nd => let (num, den) := nd in
    let num_min := min_exp j num in let den_min := min_exp j den in
    let num := pull j num_min num in let den := pull j den_min den in
    let highest_pole := (- num_min + den_min)%Z in
    if (order <? - highest_pole)%Z then OrderError
    else match low j num, low j den, singular_loop j (Z.to_nat (order + highest_pole)) 0 1 num den [] with
         | Some ln, Some ld, Some r =>
             let coeffs := Prod [Pol ln; EPol ld (Num (-1))] :: r in
             Done (combine coeffs (map (fun i => row j (Z.of_nat i - highest_pole)) (seq 0 (S (Z.to_nat (order + highest_pole))))))
         | _, _, _ => NoFuel
         end).

(** ** expansion.py:188-227 [_expand_and_flatten] *)
Fixpoint for_coeffs (f : expr -> result expr) (p : terms_t) : result terms_t :=
  match p with
  | [] => Done []
  | (c, k) :: r => bind (f c) (fun c' => bind (for_coeffs f r) (fun r' => Done ((c', k) :: r')))
  end.
(** 206-222 *)
Fixpoint recursive_expansion (step : expr -> nat -> Z -> result terms_t) (ixs : list (nat * Z)) (e : expr) : result expr :=
  match ixs with
  | [] => IndexError      (* pop from an empty list *)
  | (j, o) :: r => bind (step e j o) (fun p => match r with [] => Done (Pol p) | _ => bind (for_coeffs (recursive_expansion step r) p) (fun p => Done (Pol p)) end)
  end.
Definition expand_and_flatten (step : expr -> nat -> Z -> result terms_t) (e : expr) (indices : list nat) (orders : list Z) : result expr :=
  if Nat.eqb (length indices) (length orders)
  then bind (recursive_expansion step (combine indices orders) e) (fun x => if Nat.eqb (length indices) 1 then Done x else Done (flatten (Some (length indices - 1)%nat) x))
  else AssertionError.
(** 231-267 *)
Definition expand_singular := expand_and_flatten singular_step.
(** 269-290 *)
Definition expand_Taylor := expand_and_flatten taylor_step.
End Exp.
