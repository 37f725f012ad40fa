(** ModelFloatParts.v -- the interaction, the entropies and the constraints of the
    package in binary64 arithmetic (Flocq), in the order of the code.

    The product [A @ B] of two matrices is computed by the BLAS library, in an
    order that it chooses; [dot n x y] stands for one entry of such a product. *)

From Flocq Require Import Core BinarySingleNaN.
From Coq Require Import Reals ZArith List Bool Arith.
From Verif Require Import Base ModelFloat ModelFloatKernel.
Import ListNotations.

Definition two64 : f64 := ofZ64 2.

Section Parts.
Variable dot : nat -> vec64 -> vec64 -> f64.

(* ------------------------------------------------------------------ *)
(** * Interaction *)

(** flory/interaction/flory_huggins.py:67-68 [potential] *)
Definition fh64_potential (nf : nat) (chis : mat64) (feat : mat64) : mat64 :=
  fun r m => dot nf (chis r) (fun s => feat s m).

(** flory/interaction/flory_huggins.py:56-65 [volume_derivative] *)
Definition fh64_vd (nf : nat) (pot feat : mat64) : vec64 :=
  fun m => mul64 (for_ nf (fun r ans => add64 ans (mul64 (pot r m) (feat r m))) zero64) half64.

(* ------------------------------------------------------------------ *)
(** * Entropy *)

(** flory/entropy/ideal_gas.py:73-76 [comp_to_feat]: rows are copied *)
Definition ig64_feat (phis : mat64) : mat64 := phis.

(** the running index of lines 85-91 when it reaches feature [r] *)
Definition first64 (npf : nat -> nat) (r : nat) : nat := for_ r (fun s n => (n + npf s)%nat) O.

(** flory/entropy/ideal_gas_polydispersed.py:84-91 [comp_to_feat]: the first
    component of a feature is copied, the others are added *)
Definition pg64_feat (npf : nat -> nat) (phis : mat64) : mat64 :=
  fun r m => for_ (npf r - 1) (fun j f => add64 f (phis (first64 npf r + S j)%nat m)) (phis (first64 npf r) m).

(** flory/entropy/ideal_gas.py:78-82 and ideal_gas_polydispersed.py:93-97
    [volume_derivative] *)
Definition ig64_vd (nc : nat) (sizes : vec64) (phis : mat64) : vec64 :=
  fun m => for_ nc (fun i ans => minus64 ans (div64 (phis i m) (sizes i))) zero64.

(* ------------------------------------------------------------------ *)
(** * Linear constraints *)

Record cstate64 := { d_mult : mat64; d_res : mat64; d_pot : mat64; d_vold : vec64 }.
Record lin_par64 := { n_cons : nat; n_feat : nat; n_Cs : mat64; n_Ts : vec64; n_ratio : f64; n_elast : f64 }.

(** linear_local.py:103-105, linear_global.py:104-106 *)
Definition lin_residue64 (p : lin_par64) (feat : mat64) : mat64 :=
  fun a m => minus64 (dot (n_feat p) (n_Cs p a) (fun r => feat r m)) (n_Ts p a).

(** flory/constraint/linear_local.py:102-117 [prepare] *)
Definition local_prepare64 (p : lin_par64) (feat : mat64) (Js masks : vec64) (c : cstate64) : cstate64 :=
  let residue := lin_residue64 p feat in
  let potential := fun r m =>
    dot (n_cons p) (fun a => n_Cs p a r)
      (fun a => add64 (d_mult c a m) (mul64 (mul64 two64 (n_elast p)) (residue a m))) in
  let vd := fun m =>
    for_ (n_cons p) (fun a v =>
      add64 v (mul64 (residue a m) (add64 (d_mult c a m) (mul64 (residue a m) (n_elast p))))) zero64 in
  {| d_mult := d_mult c;
     d_res := fun a m => mul64 (residue a m) (masks m);
     d_pot := fun r m => mul64 (potential r m) (masks m);
     d_vold := fun m => mul64 (vd m) (masks m) |}.

(** flory/constraint/linear_local.py:119-122 [evolve]; the largest entry is taken
    row by row, which gives the same number *)
Definition local_evolve64 (p : lin_par64) (np : nat) (step : f64) (masks : vec64) (c : cstate64) : cstate64 * f64 :=
  ({| d_mult := fun a m =>
        mul64 (add64 (d_mult c a m) (mul64 (mul64 step (n_ratio p)) (d_res c a m))) (masks m);
      d_res := d_res c; d_pot := d_pot c; d_vold := d_vold c |},
   amax64 (n_cons p) (fun a => amax64 np (fun m => abs64 (d_res c a m)))).

Definition local_class64 (p : lin_par64) (np : nat) : cons64 cstate64 := {|
  c6_prepare := local_prepare64 p;
  c6_potential := d_pot;
  c6_vd := d_vold;
  c6_evolve := local_evolve64 p np
|}.

(** flory/constraint/linear_global.py:103-124 [prepare]; one multiplier and one
    residue per constraint, in column 0.  [np.outer] multiplies with one. *)
Definition global_prepare64 (p : lin_par64) (np : nat) (feat : mat64) (Js masks : vec64) (c : cstate64) : cstate64 :=
  let cres := lin_residue64 p feat in
  let residue := fun a => sum64 np (fun m => mul64 (cres a m) (Js m)) in
  let potential := fun r =>
    dot (n_cons p) (fun a => n_Cs p a r)
      (fun a => add64 (d_mult c a 0%nat) (mul64 (mul64 two64 (n_elast p)) (residue a))) in
  let vd := fun m =>
    for_ (n_cons p) (fun a v =>
      add64 v (mul64 (cres a m) (add64 (d_mult c a 0%nat) (mul64 (mul64 two64 (residue a)) (n_elast p))))) zero64 in
  {| d_mult := d_mult c;
     d_res := fun a _ => div64 (residue a) (sum64 np Js);
     d_pot := fun r m => mul64 (mul64 (potential r) one64) (masks m);
     d_vold := fun m => mul64 (vd m) (masks m) |}.

(** flory/constraint/linear_global.py:126-128 [evolve] *)
Definition global_evolve64 (p : lin_par64) (step : f64) (masks : vec64) (c : cstate64) : cstate64 * f64 :=
  ({| d_mult := fun a m => add64 (d_mult c a m) (mul64 (mul64 step (n_ratio p)) (d_res c a m));
      d_res := d_res c; d_pot := d_pot c; d_vold := d_vold c |},
   amax64 (n_cons p) (fun a => abs64 (d_res c a 0%nat))).

Definition global_class64 (p : lin_par64) (np : nat) : cons64 cstate64 := {|
  c6_prepare := global_prepare64 p np;
  c6_potential := d_pot;
  c6_vd := d_vold;
  c6_evolve := global_evolve64 p
|}.
End Parts.

(** flory/constraint/no.py:22-55; [evolve] returns the integer 0, which compares
    like the number *)
Definition no_class64 : cons64 cstate64 := {|
  c6_prepare := fun _ _ _ c => c;
  c6_potential := d_pot;
  c6_vd := d_vold;
  c6_evolve := fun _ _ c => (c, zero64)
|}.

(** one possible order: one product after the other *)
Definition dot_loop (n : nat) (x y : vec64) : f64 := sum64 n (fun i => mul64 (x i) (y i)).
