(** ModelArrays.v -- flory/free_energy/base.py on arrays of compositions with
    any number of dimensions, operation by operation as written with numpy.

    Inputs are finite numbers and results extended numbers as in
    ModelFreeEnergy.v.  Axes of length zero are allowed except as the first axis
    in [equilibration_error], where numpy divides by zero. *)

From Coq Require Import Reals List Bool Arith ZArith.
From Verif Require Import Base ModelCommon ModelFreeEnergy ModelNorm.
Import ListNotations.
Open Scope R_scope.

(* ------------------------------------------------------------------ *)
(** * numpy arrays *)

(** Shape and entries with the last axis first: the index [a[x, y, z]] is the
    list [z; y; x]. *)
Record arr (A : Type) := { a_sh : list nat; a_at : list nat -> A }.
Arguments a_sh {A} a. Arguments a_at {A} a. Arguments Build_arr {A}.
(** in numpy's order *)
Definition shape_of {A} (a : arr A) : list nat := rev (a_sh a).
Definition entry_of {A} (a : arr A) (idx : list nat) : A := a_at a (rev idx).

(** broadcasting of two operands *)
Fixpoint bc_shape (s t : list nat) : res (list nat) :=
  match s, t with
  | [], _ => Ok t
  | _, [] => Ok s
  | a :: s', b :: t' =>
      let* r := bc_shape s' t' in
      if Nat.eqb a b then Ok (a :: r) else if Nat.eqb a 1 then Ok (b :: r)
      else if Nat.eqb b 1 then Ok (a :: r) else Err ValueError
  end.
(** elementwise functions of one and two operands *)
Definition map1 {A B} (f : A -> B) (x : arr A) : arr B := Build_arr (a_sh x) (fun idx => f (a_at x idx)).
Definition map2 {A B C} (f : A -> B -> C) (x : arr A) (y : arr B) : res (arr C) :=
  let* s := bc_shape (a_sh x) (a_sh y) in
  Ok (Build_arr s (fun idx => f (a_at x (bc_idx (a_sh x) idx)) (a_at y (bc_idx (a_sh y) idx)))).

(** [x[..., None]] *)
Definition newaxis {A} (x : arr A) : arr A := Build_arr (1%nat :: a_sh x) (fun idx => a_at x (tl idx)).
(** [np.atleast_1d(x)] *)
Definition atleast1 {A} (x : arr A) : arr A :=
  match a_sh x with [] => Build_arr [1%nat] (fun _ => a_at x []) | _ => x end.
(** length of the last axis *)
Definition width {A} (x : arr A) : nat := hd O (a_sh x).
(** [x.sum(-1)] *)
Definition sum_last (x : arr xr) : arr xr := Build_arr (tl (a_sh x)) (fun idx => xsum (width x) (fun i => a_at x (i :: idx))).
(** [x[..., k]] *)
Definition take_last {A} (x : arr A) (z : Z) : res (arr A) :=
  let* k := axis_index (width x) z in Ok (Build_arr (tl (a_sh x)) (fun idx => a_at x (k :: idx))).
(** position [i] of an axis after position [k] was deleted *)
Definition after (k i : nat) : nat := if Nat.ltb i k then i else S i.
(** [np.delete(x, k, axis=-1)] and [axis=-2] *)
Definition delete_last {A} (x : arr A) (z : Z) : res (arr A) :=
  let* k := axis_index (width x) z in
  Ok (Build_arr ((width x - 1)%nat :: tl (a_sh x)) (fun idx => a_at x (after k (hd O idx) :: tl idx))).
Definition delete_second {A} (x : arr A) (z : Z) : res (arr A) :=
  let* k := axis_index (hd O (tl (a_sh x))) z in
  Ok (Build_arr (width x :: (hd O (tl (a_sh x)) - 1)%nat :: tl (tl (a_sh x)))
        (fun idx => a_at x (hd O idx :: after k (hd O (tl idx)) :: tl (tl idx)))).
(** [x[..., k, None, :]], [x[..., :, k, None]] and [x[..., k, None, k, None]] *)
Definition row_axis {A} (x : arr A) (z : Z) : res (arr A) :=
  let* k := axis_index (hd O (tl (a_sh x))) z in
  Ok (Build_arr (width x :: 1%nat :: tl (tl (a_sh x))) (fun idx => a_at x (hd O idx :: k :: tl (tl idx)))).
Definition column_axis {A} (x : arr A) (z : Z) : res (arr A) :=
  let* k := axis_index (width x) z in
  Ok (Build_arr (1%nat :: tl (a_sh x)) (fun idx => a_at x (k :: tl idx))).
Definition corner_axis {A} (x : arr A) (z : Z) : res (arr A) :=
  let* k := axis_index (hd O (tl (a_sh x))) z in
  let* l := axis_index (width x) z in
  Ok (Build_arr (1%nat :: 1%nat :: tl (tl (a_sh x))) (fun idx => a_at x (l :: k :: tl (tl idx)))).

(** [np.any] and sums over all entries *)
Fixpoint any_at (s : list nat) (f : list nat -> bool) : bool :=
  match s with [] => f [] | n :: s' => any_at s' (fun idx => existsb (fun i => f (i :: idx)) (seq 0 n)) end.
Fixpoint sum_at (s : list nat) (f : list nat -> R) : R :=
  match s with [] => f [] | n :: s' => sum_at s' (fun idx => rsum n (fun i => f (i :: idx))) end.

(* ------------------------------------------------------------------ *)
(** * Interaction and entropy *)

(** the arrays [self._chis] and [self._sizes] *)
Definition chis_arr (F : fe) : arr R :=
  Build_arr [fe_nc F; fe_nc F] (fun idx => fe_chis F (hd O (tl idx)) (hd O idx)).
Definition sizes_arr (F : fe) : arr R := Build_arr [fe_nc F] (fun idx => fe_sizes F (hd O idx)).

(** flory/interaction/flory_huggins.py:138-155:
    [0.5 * np.einsum("...i,...j,ij->...", phis, phis, chis)] *)
Definition int_energy_nd (F : fe) (c : arr R) : arr xr :=
  Build_arr (tl (a_sh c)) (fun idx =>
    Fin (1 / 2 * rsum (width c) (fun i => rsum (width c) (fun j =>
      a_at c (i :: idx) * a_at c (j :: idx) * a_at (chis_arr F) [j; i])))).
(** lines 157-174: [phis @ chis] *)
Definition int_jacobian_nd (F : fe) (c : arr R) : arr xr :=
  Build_arr (fe_nc F :: tl (a_sh c)) (fun idx =>
    Fin (rsum (width c) (fun j => a_at c (j :: tl idx) * a_at (chis_arr F) [hd O idx; j]))).
(** lines 176-192: [np.zeros_like(phis)[..., None] + chis] *)
Definition int_hessian_nd (F : fe) (c : arr R) : res (arr xr) :=
  map2 (fun z x => Fin (z + x)) (newaxis (map1 (fun _ => 0) c)) (chis_arr F).

(** flory/entropy/ideal_gas.py:125-141 *)
Definition ent_energy_nd (F : fe) (c : arr R) : res (arr xr) :=
  let* t := map2 xdiv (map1 xlogx c) (sizes_arr F) in Ok (sum_last t).
(** lines 143-159 *)
Definition ent_jacobian_nd (F : fe) (c : arr R) : res (arr xr) :=
  let* t := map2 xdiv (map1 xlog c) (sizes_arr F) in
  map2 xadd t (map1 (fun l => xdiv (Fin 1) l) (sizes_arr F)).
(** lines 161-184: zeros, then one diagonal entry after the other *)
Definition set_diag (diag : arr xr) (m : arr xr) (k : nat) : arr xr :=
  Build_arr (a_sh m) (fun idx =>
    if (Nat.eqb (hd O idx) k && Nat.eqb (hd O (tl idx)) k)%bool then a_at diag (k :: tl (tl idx)) else a_at m idx).
Definition ent_hessian_nd (F : fe) (c : arr R) : res (arr xr) :=
  let* diag := map2 xscale (map1 (fun p => xdiv (Fin 1) p) c) (sizes_arr F) in
  Ok (fold_left (set_diag diag) (seq 0 (fe_nc F)) (Build_arr (fe_nc F :: a_sh diag) (fun _ => Fin 0))).
(** lines 186-205 *)
Definition ent_jacobian_fractions_nd (F : fe) (c : arr R) : res (arr xr) :=
  let* t := map2 xdiv (map1 xlogx c) (sizes_arr F) in
  let* u := map2 (fun p l => xdiv (Fin p) l) c (sizes_arr F) in
  map2 xadd t u.

(* ------------------------------------------------------------------ *)
(** * FreeEnergyBase *)

(** flory/free_energy/base.py:165-196.  [phis.shape[-1]] of a scalar raises
    IndexError. *)
Definition check_nd (F : fe) (c : arr R) : res unit :=
  match a_sh c with
  | [] => Err IndexError
  | n :: _ =>
      if negb (Nat.eqb n (fe_nc F)) then Err VolumeFractionError
      else if any_at (a_sh c) (fun idx => Rltb (a_at c idx) 0) then Err VolumeFractionError else Ok tt
  end.

(** lines 72-163 *)
Definition energy_impl_nd (F : fe) (c : arr R) : res (arr xr) :=
  let* e := ent_energy_nd F c in map2 xadd (int_energy_nd F c) e.
Definition jacobian_impl_nd (F : fe) (c : arr R) : res (arr xr) :=
  let* e := ent_jacobian_nd F c in map2 xadd (int_jacobian_nd F c) e.
Definition hessian_impl_nd (F : fe) (c : arr R) : res (arr xr) :=
  let* i := int_hessian_nd F c in let* e := ent_hessian_nd F c in map2 xadd i e.
Definition jacobian_fractions_impl_nd (F : fe) (c : arr R) : res (arr xr) :=
  let* i := map2 xscale (int_jacobian_nd F c) c in
  let* e := ent_jacobian_fractions_nd F c in map2 xadd i e.

(** lines 198-211 *)
Definition free_energy_density_nd (F : fe) (c : arr R) : res (arr xr) :=
  let* _ := check_nd F c in energy_impl_nd F c.

(** lines 213-242 *)
Definition jacobian_nd (F : fe) (c : arr R) (index : option Z) : res (arr xr) :=
  let* _ := check_nd F c in
  let* j := jacobian_impl_nd F c in
  match index with
  | None => Ok j
  | Some z => let* d := delete_last j z in let* t := take_last j z in map2 xsub d (newaxis t)
  end.

(** lines 244-278 *)
Definition hessian_nd (F : fe) (c : arr R) (index : option Z) : res (arr xr) :=
  let* _ := check_nd F c in
  let* h := hessian_impl_nd F c in
  match index with
  | None => Ok h
  | Some z =>
      let* r := row_axis h z in
      let* h1 := map2 xsub h r in
      let* q := column_axis h z in
      let* h2 := map2 xsub h1 q in
      let* k := corner_axis h z in
      let* h3 := map2 xadd h2 k in
      let* d := delete_last h3 z in
      delete_second d z
  end.

(** lines 280-297 *)
Definition chemical_potentials_nd (F : fe) (c : arr R) : res (arr xr) :=
  let* _ := check_nd F c in
  let* f := free_energy_density_nd F c in
  let* j := jacobian_nd F c None in
  let* p := jacobian_fractions_impl_nd F c in
  let* t := map2 xsub (newaxis (atleast1 f)) (newaxis (sum_last p)) in
  map2 xadd t j.

(** lines 299-320 *)
Definition exchange_chemical_potentials_nd (F : fe) (c : arr R) (index : Z) : res (arr xr) :=
  let* mus := jacobian_nd F c None in
  let* t := take_last mus index in map2 xsub mus (newaxis t).

(** lines 322-340 *)
Definition pressure_nd (F : fe) (c : arr R) (index : Z) : res (arr xr) :=
  let* mus := chemical_potentials_nd F c in
  let* t := take_last mus index in Ok (map1 xneg t).

Section Stability.
(** [np.linalg.eigvalsh] of one matrix: the eigenvalues *)
Variable eigvalsh : list (list xr) -> list xr.

(** [np.linalg.eigvalsh] of the last two axes *)
Definition eigvalsh_nd (h : arr xr) : arr xr :=
  Build_arr (tl (a_sh h)) (fun idx =>
    nth (hd O idx) (eigvalsh (listed (hd O (tl (a_sh h))) (fun i => listed (width h) (fun j => a_at h (j :: i :: tl idx))))) NaN).

(** lines 342-361 *)
Definition num_unstable_modes_nd (F : fe) (c : arr R) (conserved : bool) : res (arr nat) :=
  let* h := hessian_nd F c (if conserved then Some 0%Z else None) in
  let e := eigvalsh_nd h in
  Ok (Build_arr (tl (a_sh e)) (fun idx => ncount (width e) (fun i => xlt0 (a_at e (i :: idx))))).

(** lines 363-379 *)
Definition is_stable_nd (F : fe) (c : arr R) (conserved : bool) : res (arr bool) :=
  let* n := num_unstable_modes_nd F c conserved in Ok (map1 (fun k => Nat.eqb k 0) n).
End Stability.

(* ------------------------------------------------------------------ *)
(** * Equilibration error *)

(** [x.mean(axis=0)] *)
Definition mean_first (x : arr R) : arr R :=
  let P := last (a_sh x) O in
  Build_arr (removelast (a_sh x)) (fun idx => rsum P (fun p => a_at x (idx ++ [p])) / INR P).

Section Norm.
Context (smax smin : nat -> nat -> mat -> R).

(** [np.linalg.norm(x, ord, axis)] of an array with at least two dimensions:
    along axis 0, along axis 1, or of the whole array *)
Definition norm_nd (x : arr R) (o : order) (axis : err_axis) : res (arr R) :=
  let s := a_sh x in
  match axis with
  | ByComponent => Ok (Build_arr (removelast s) (fun idx => vnorm o (last s O) (fun p => a_at x (idx ++ [p]))))
  | ByPhase =>
      Ok (Build_arr (removelast (removelast s) ++ [last s O])
            (fun idx => vnorm o (last (removelast s) O) (fun a => a_at x (removelast idx ++ [a; last idx O]))))
  | ByBoth =>
      match o, s with
      | Onone, _ => Ok (Build_arr [] (fun _ => sqrt (sum_at s (fun idx => a_at x idx * a_at x idx))))
      | _, [n; np] => let* e := mnorm smax smin o np n (fun p i => a_at x [i; p]) in Ok (Build_arr [] (fun _ => e))
      | _, _ => Err ValueError
      end
  end.

(** lines 381-408 *)
Definition equilibration_error_nd (F : fe) (c : arr R) (o : order) (axis : err_axis) : res (arr R) :=
  let* mus := chemical_potentials_nd F c in
  let m := map1 nan_to_num mus in
  let* d := map2 Rminus m (mean_first m) in
  norm_nd d o axis.
End Norm.
