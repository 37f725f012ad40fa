(** ModelNorm.v -- free_energy/base.py:381-408 [equilibration_error] with the
    argument [order], and the norms of [numpy.linalg.norm] it uses.

    At least one component and one phase. *)

From Coq Require Import Reals List Bool Arith ZArith.
From Verif Require Import Base ModelCommon ModelFreeEnergy.
Import ListNotations.
Open Scope R_scope.

(** argument [order]: None, np.inf, -np.inf, a number *)
Inductive order := Onone | Oinf | Oninf | Onum (p : R).

(** [x ** p] for [0 <= x], [0 < p] *)
Definition rpow (x p : R) : R := if Req_EM_T x 0 then 0 else Rpower x p.

(** [norm(x, ord, axis)] along one axis.  For a negative order a vanishing
    entry gives [inf ** (1/ord) = 0]. *)
Definition vnorm (o : order) (n : nat) (f : vec) : R :=
  match o with
  | Onone => sqrt (rsum n (fun i => f i * f i))
  | Oinf => vmax n (fun i => Rabs (f i))
  | Oninf => vmin n (fun i => Rabs (f i))
  | Onum p =>
      if Reqb p 0 then INR (ncount n (fun i => negb (Reqb (f i) 0)))
      else if Reqb p 1 then rsum n (fun i => Rabs (f i))
      else if Reqb p 2 then sqrt (rsum n (fun i => f i * f i))
      else if Rltb 0 p then rpow (rsum n (fun i => rpow (Rabs (f i)) p)) (/ p)
      else if Nat.ltb 0 (ncount n (fun i => Reqb (f i) 0)) then 0
      else Rpower (rsum n (fun i => Rpower (Rabs (f i)) p)) (/ p)
  end.

Section Norm.
(** largest and smallest singular value of a matrix with the given numbers of
    rows and columns (LAPACK) *)
Context (smax smin : nat -> nat -> mat -> R).

(** [norm(x, ord)] of a two-dimensional array: Frobenius norm or a matrix norm *)
Definition mnorm (o : order) (np n : nat) (D : mat) : res R :=
  match o with
  | Onone => Ok (sqrt (rsum np (fun p => rsum n (fun i => D p i * D p i))))
  | Oinf => Ok (vmax np (fun p => rsum n (fun i => Rabs (D p i))))
  | Oninf => Ok (vmin np (fun p => rsum n (fun i => Rabs (D p i))))
  | Onum p =>
      if Reqb p 1 then Ok (vmax n (fun i => rsum np (fun p => Rabs (D p i))))
      else if Reqb p (-1) then Ok (vmin n (fun i => rsum np (fun p => Rabs (D p i))))
      else if Reqb p 2 then Ok (smax np n D)
      else if Reqb p (-2) then Ok (smin np n D)
      else Err ValueError
  end.

(** entry [i] of the deviations in phase [p] *)
Definition dev_matrix (n : nat) (mus : list (list xr)) : mat :=
  fun p i => nth p (deviations n mus) (fun _ => 0) i.

(** lines 405-408 *)
Definition equilibration_error_ord (F : fe) (c : comps) (o : order) (axis : err_axis) : res (list R) :=
  let* mus := chemical_potentials F c in
  let n := fe_nc F in
  let np := length mus in
  let D := dev_matrix n mus in
  match axis with
  | ByComponent => Ok (listed n (fun i => vnorm o np (fun p => D p i)))
  | ByPhase => Ok (listed np (fun p => vnorm o n (D p)))
  | ByBoth => let* e := mnorm o np n D in Ok [e]
  end.
End Norm.
