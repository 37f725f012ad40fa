(** ModelProgress.v -- the progress bars of run(). *)

From Coq Require Import Reals ZArith.
From Flocq Require Import Core.
From Verif Require Import Base ModelKernel.
Open Scope R_scope.

Definition log10 (x : R) : R := ln x / ln 10.

(** [round(x, 1)] of a numpy float: nearest multiple of 1/10, ties to even. *)
Definition round1 (x : R) : R := IZR (ZnearestE (10 * x)) / 10.

(** finder.py:561 [bar_max = -np.log10(tolerance)].  None stands for inf
    (tolerance 0) and nan (negative tolerance). *)
Definition bar_max (tol : R) : option R := if Rltb 0 tol then Some (- log10 tol) else None.

(** finder.py:579-581: length of a bar for the error [a].  [min] with inf or nan
    as second argument returns the first one. *)
Definition bar_val (tol a : R) : R :=
  let x := round1 (- log10 (Rmax a (/ 10 ^ 100))) in
  Rmax 0 (match bar_max tol with Some b => Rmin x b | None => x end).

(** finder.py:616-620: the four bars after a metastep. *)
Definition bars (tol : R) (rep : report) : R * R * R * R :=
  (bar_val tol (e_incomp rep), bar_val tol (e_omega rep), bar_val tol (e_Js rep), bar_val tol (e_cons rep)).
