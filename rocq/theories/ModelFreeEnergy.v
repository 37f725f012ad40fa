(** ModelFreeEnergy.v -- flory/free_energy: energies, derivatives, chemical
    potentials, stability and equilibration error.

    Inputs are finite numbers; results are extended numbers [xr] because the
    logarithm of a vanishing fraction and divisions by zero are not exceptions
    for numpy arrays. *)

From Coq Require Import Reals List Bool Arith ZArith.
From Verif Require Import Base ModelCommon.
Import ListNotations.
Open Scope R_scope.

(* ------------------------------------------------------------------ *)
(** * Arithmetic of extended numbers *)

Definition xneg (x : xr) : xr :=
  match x with Fin a => Fin (- a) | PInf => NInf | NInf => PInf | NaN => NaN end.
Definition xadd (x y : xr) : xr :=
  match x, y with
  | Fin a, Fin b => Fin (a + b)
  | NaN, _ | _, NaN => NaN
  | PInf, NInf | NInf, PInf => NaN
  | PInf, _ | _, PInf => PInf
  | NInf, _ | _, NInf => NInf
  end.
Definition xsub (x y : xr) : xr := xadd x (xneg y).
(** product and quotient by a finite number (a zero divisor is +0) *)
Definition xscale (x : xr) (b : R) : xr :=
  match x with
  | Fin a => Fin (a * b)
  | NaN => NaN
  | _ => if Req_EM_T b 0 then NaN else if Rlt_dec b 0 then xneg x else x
  end.
Definition xdiv (x : xr) (b : R) : xr :=
  match x with
  | Fin a => if Req_EM_T b 0 then
               (if Req_EM_T a 0 then NaN else if Rlt_dec a 0 then NInf else PInf)
             else Fin (a / b)
  | NaN => NaN
  | _ => if Rlt_dec b 0 then xneg x else x
  end.
Definition xlt0 (x : xr) : bool :=
  match x with Fin a => Rltb a 0 | NInf => true | _ => false end.
Fixpoint xsum (n : nat) (f : nat -> xr) : xr :=
  match n with O => Fin 0 | S k => xadd (xsum k f) (f k) end.

(** [np.log] *)
Definition xlog (x : R) : xr :=
  if Req_EM_T x 0 then NInf else if Rlt_dec x 0 then NaN else Fin (ln x).

(** entries of an array with [n] entries *)
Definition listed {A} (n : nat) (f : nat -> A) : list A := map f (seq 0 n).

(** [np.delete(l, k)] *)
Definition delete {A} (k : nat) (l : list A) : list A := firstn k l ++ skipn (S k) l.

(* ------------------------------------------------------------------ *)
(** * Interaction and entropy *)

(** flory/interaction/flory_huggins.py:138-155 [_energy_impl] *)
Definition int_energy (nc : nat) (chis : mat) (phi : vec) : xr :=
  Fin (1 / 2 * rsum nc (fun i => rsum nc (fun j => phi i * phi j * chis i j))).
(** lines 157-174 [_jacobian_impl] *)
Definition int_jacobian (nc : nat) (chis : mat) (phi : vec) (i : nat) : xr :=
  Fin (rsum nc (fun j => phi j * chis j i)).
(** lines 176-192 [_hessian_impl] *)
Definition int_hessian (chis : mat) (phi : vec) (i j : nat) : xr := Fin (0 + chis i j).

(** flory/entropy/ideal_gas.py:125-141 [_energy_impl] *)
Definition ent_energy (nc : nat) (sizes phi : vec) : xr :=
  xsum nc (fun i => xdiv (xlogx (phi i)) (sizes i)).
(** lines 143-159 [_jacobian_impl] *)
Definition ent_jacobian (sizes phi : vec) (i : nat) : xr :=
  xadd (xdiv (xlog (phi i)) (sizes i)) (xdiv (Fin 1) (sizes i)).
(** lines 161-184 [_hessian_impl]: [1.0 / phis * sizes] on the diagonal *)
Definition ent_hessian (sizes phi : vec) (i j : nat) : xr :=
  if Nat.eqb i j then xscale (xdiv (Fin 1) (phi i)) (sizes i) else Fin 0.
(** lines 186-205 [_jacobian_fractions_impl] *)
Definition ent_jacobian_fractions (sizes phi : vec) (i : nat) : xr :=
  xadd (xdiv (xlogx (phi i)) (sizes i)) (xdiv (Fin (phi i)) (sizes i)).

(* ------------------------------------------------------------------ *)
(** * FreeEnergyBase *)

(** A free energy of a Flory-Huggins (possibly block) interaction and an
    ideal-gas (possibly polydispersed) entropy. *)
Record fe := { fe_nc : nat; fe_chis : mat; fe_sizes : vec }.

(** flory/free_energy/base.py:27-47 [__init__] *)
Definition fe_new (nc_int : nat) (chis : mat) (nc_ent : nat) (sizes : vec) : res fe :=
  if Nat.eqb nc_int nc_ent then Ok {| fe_nc := nc_int; fe_chis := chis; fe_sizes := sizes |}
  else Err ComponentNumberError.

(** The volume fractions passed by the user: one composition (1D array) or a
    2D array with [ncol] columns.  ModelArrays.v has arrays of higher dimension. *)
Inductive comps :=
| One (phi : list R)
| Many (ncol : nat) (rows : list (list R)).
(** Results: one value or one per row. *)
Inductive out (A : Type) := Single (a : A) | Rows (l : list A).
Arguments Single {A} a. Arguments Rows {A} l.

Definition entries (phi : list R) : vec := fun i => nth i phi 0.
Definition each {A} (f : vec -> A) (c : comps) : out A :=
  match c with One phi => Single (f (entries phi)) | Many _ rows => Rows (map (fun p => f (entries p)) rows) end.
Definition omap {A B} (f : A -> B) (o : out A) : out B :=
  match o with Single a => Single (f a) | Rows l => Rows (map f l) end.

(** lines 165-196 [check_volume_fractions] *)
Definition check_fractions (F : fe) (c : comps) : res unit :=
  let '(last, rows) := match c with One phi => (length phi, [phi]) | Many n rows => (n, rows) end in
  if negb (Nat.eqb last (fe_nc F)) then Err VolumeFractionError else
  if existsb (existsb (fun x => Rltb x 0)) rows then Err VolumeFractionError else Ok tt.

(** python index into an axis of length [n]; numpy raises IndexError *)
Definition axis_index (n : nat) (k : Z) : res nat :=
  if (Z.ltb k (- Z.of_nat n) || Z.leb (Z.of_nat n) k)%bool then Err IndexError
  else Ok (Z.to_nat (if Z.ltb k 0 then k + Z.of_nat n else k)).

(** lines 72-90, 92-110, 112-135, 137-163: sums of the two contributions *)
Definition energy_at (F : fe) (phi : vec) : xr :=
  xadd (int_energy (fe_nc F) (fe_chis F) phi) (ent_energy (fe_nc F) (fe_sizes F) phi).
Definition jacobian_at (F : fe) (phi : vec) (i : nat) : xr :=
  xadd (int_jacobian (fe_nc F) (fe_chis F) phi i) (ent_jacobian (fe_sizes F) phi i).
Definition hessian_at (F : fe) (phi : vec) (i j : nat) : xr :=
  xadd (int_hessian (fe_chis F) phi i j) (ent_hessian (fe_sizes F) phi i j).
(** the interaction has no [_jacobian_fractions_impl] of its own: line 155 *)
Definition jacobian_fractions_at (F : fe) (phi : vec) (i : nat) : xr :=
  xadd (xscale (int_jacobian (fe_nc F) (fe_chis F) phi i) (phi i)) (ent_jacobian_fractions (fe_sizes F) phi i).

(** lines 198-211 *)
Definition free_energy_density (F : fe) (c : comps) : res (out xr) :=
  let* _ := check_fractions F c in
  Ok (each (energy_at F) c).

(** lines 213-242 *)
Definition jacobian (F : fe) (c : comps) (index : option Z) : res (out (list xr)) :=
  let* _ := check_fractions F c in
  match index with
  | None => Ok (each (fun phi => listed (fe_nc F) (jacobian_at F phi)) c)
  | Some z =>
      let* k := axis_index (fe_nc F) z in
      Ok (each (fun phi =>
        let j := listed (fe_nc F) (jacobian_at F phi) in
        map (fun x => xsub x (nth k j NaN)) (delete k j)) c)
  end.

(** lines 244-278 *)
Definition hessian_rows (F : fe) (index : option nat) (phi : vec) : list (list xr) :=
  let n := fe_nc F in
  let h := hessian_at F phi in
  match index with
  | None => listed n (fun i => listed n (h i))
  | Some k =>
      let red := fun i j => xadd (xsub (xsub (h i j) (h k j)) (h i k)) (h k k) in
      delete k (map (delete k) (listed n (fun i => listed n (red i))))
  end.
Definition hessian (F : fe) (c : comps) (index : option Z) : res (out (list (list xr))) :=
  let* _ := check_fractions F c in
  match index with
  | None => Ok (each (hessian_rows F None) c)
  | Some z => let* k := axis_index (fe_nc F) z in Ok (each (hessian_rows F (Some k)) c)
  end.

(** lines 280-297; a single composition gives an array with one row *)
Definition potential_at (F : fe) (phi : vec) (i : nat) : xr :=
  xadd (xsub (energy_at F phi) (xsum (fe_nc F) (jacobian_fractions_at F phi))) (jacobian_at F phi i).
Definition rows_of {A} (o : out A) : list A := match o with Single a => [a] | Rows l => l end.
Definition chemical_potentials (F : fe) (c : comps) : res (list (list xr)) :=
  let* _ := check_fractions F c in
  Ok (rows_of (each (fun phi => listed (fe_nc F) (potential_at F phi)) c)).

(** lines 299-320 *)
Definition exchange_chemical_potentials (F : fe) (c : comps) (index : Z) : res (out (list xr)) :=
  let* j := jacobian F c None in
  let* k := axis_index (fe_nc F) index in
  Ok (omap (fun mus => map (fun x => xsub x (nth k mus NaN)) mus) j).

(** lines 322-340 *)
Definition pressure (F : fe) (c : comps) (index : Z) : res (list xr) :=
  let* mus := chemical_potentials F c in
  let* k := axis_index (fe_nc F) index in
  Ok (map (fun m => xneg (nth k m NaN)) mus).

Section Stability.
(** [np.linalg.eigvalsh] of one matrix: the eigenvalues *)
Variable eigvalsh : list (list xr) -> list xr.

(** lines 342-361 *)
Definition num_unstable_modes (F : fe) (c : comps) (conserved : bool) : res (out nat) :=
  let* h := hessian F c (if conserved then Some 0%Z else None) in
  Ok (omap (fun m => length (filter xlt0 (eigvalsh m))) h).

(** lines 363-379 *)
Definition is_stable (F : fe) (c : comps) (conserved : bool) : res (out bool) :=
  let* n := num_unstable_modes F c conserved in
  Ok (omap (fun k => Nat.eqb k 0) n).
End Stability.

(** [np.nan_to_num(x, posinf=0.0, neginf=0.0)] *)
Definition nan_to_num (x : xr) : R := match x with Fin a => a | _ => 0 end.

(** lines 381-408 with [order=None] (2-norm, Frobenius norm for [axis=None]) *)
Inductive err_axis := ByComponent | ByPhase | ByBoth.
Definition deviations (n : nat) (mus : list (list xr)) : list vec :=
  let rows := map (fun m => fun i => nan_to_num (nth i m NaN)) mus in
  let mean := fun i => lsum rows (fun m => m i) / INR (length rows) in
  map (fun m => fun i => m i - mean i) rows.
Definition equilibration_error (F : fe) (c : comps) (axis : err_axis) : res (list R) :=
  let* mus := chemical_potentials F c in
  let n := fe_nc F in
  let d := deviations n mus in
  Ok match axis with
     | ByComponent => listed n (fun i => sqrt (lsum d (fun m => m i * m i)))
     | ByPhase => map (fun m => sqrt (rsum n (fun i => m i * m i))) d
     | ByBoth => [sqrt (lsum d (fun m => rsum n (fun i => m i * m i)))]
     end.
