(** ModelCommon.v -- flory/common: keyword filtering, broadcasting, block
    expansion, xlogx. *)

From Coq Require Import String Reals List Bool Arith ZArith.
From Verif Require Import Base.
Import ListNotations.
Open Scope R_scope.

(* ------------------------------------------------------------------ *)
(** * Keyword arguments *)

(** A python dict from strings to floats (first entry of a key wins). *)
Definition dict := list (string * R).

Fixpoint dict_get (d : dict) (k : string) : option R :=
  match d with
  | [] => None
  | (k', v) :: d' => if String.eqb k k' then Some v else dict_get d' k
  end.

(** [{**a, **b}] *)
Definition dict_merge (a b : dict) : dict := b ++ a.

(** flory/common/utilities.py:12-25 [filter_kwargs]; [params] are the names in
    the signature of the function. *)
Definition filter_kwargs (kw : dict) (params : list string) : dict :=
  flat_map (fun p => match dict_get kw p with Some v => [(p, v)] | None => [] end) params.

(** An object with a method [_compiled_impl] that accepts the keyword
    arguments [a_params]; calling it with any other keyword is a TypeError. *)
Record compilable (A : Type) := {
  a_params : list string;
  a_impl : dict -> res A
}.
Arguments a_params {A}. Arguments a_impl {A}.

Definition py_call {A} (c : compilable A) (kw : dict) : res A :=
  if forallb (fun '(k, _) => existsb (String.eqb k) (a_params c)) kw
  then a_impl c kw else Err TypeError.

(** flory/interaction/base.py:182-203, flory/entropy/base.py:186-214,
    flory/ensemble/base.py:85-103, flory/constraint/base.py:128-147
    [compiled] with arbitrary keyword arguments. *)
Definition compiled {A} (c : compilable A) (kw : dict) : res A :=
  py_call c (filter_kwargs kw (a_params c)).

(** Value of a keyword argument with a default. *)
Definition kw_default (kw : dict) (k : string) (d : R) : R :=
  match dict_get kw k with Some v => v | None => d end.

(* ------------------------------------------------------------------ *)
(** * n-dimensional arrays and broadcasting *)

(** A numpy array: shape and entries by multi-index. *)
Record nd := { nd_shape : list nat; nd_at : list nat -> R }.

(** [np.atleast_1d] *)
Definition atleast_1d (a : nd) : nd :=
  match nd_shape a with
  | [] => {| nd_shape := [1%nat]; nd_at := fun _ => nd_at a [] |}
  | _ => a
  end.

(** numpy's broadcasting rule on reversed shapes. *)
Fixpoint bc_ok (src dst : list nat) : bool :=
  match src, dst with
  | [], _ => true
  | _ :: _, [] => false
  | a :: src', b :: dst' => (Nat.eqb a b || Nat.eqb a 1) && bc_ok src' dst'
  end.

Fixpoint bc_idx (src idx : list nat) : list nat :=
  match src, idx with
  | a :: src', i :: idx' => (if Nat.eqb a 1 then O else i) :: bc_idx src' idx'
  | _, _ => []
  end.

(** [np.broadcast_to(a, shape)] *)
Definition broadcast_to (a : nd) (shape : list nat) : res nd :=
  if bc_ok (rev (nd_shape a)) (rev shape) then
    Ok {| nd_shape := shape;
          nd_at := fun idx => nd_at a (rev (bc_idx (rev (nd_shape a)) (rev idx))) |}
  else Err ValueError.

(** flory/common/utilities.py:28-42 [convert_and_broadcast] (the copy made by
    [np.array] is invisible for values; see ModelObjects.v for sharing). *)
Definition convert_and_broadcast (a : nd) (shape : list nat) : res nd :=
  broadcast_to (atleast_1d a) shape.

(* ------------------------------------------------------------------ *)
(** * Block expansion *)

(** [np.repeat(l, sizes)] along the outer axis. *)
Fixpoint np_repeat {A} (l : list A) (sizes : list nat) : list A :=
  match l, sizes with
  | x :: l', n :: sizes' => repeat x n ++ np_repeat l' sizes'
  | _, _ => []
  end.

(** flory/common/utilities.py:45-70 [make_square_blocks] for 2D arrays given
    as lists of rows ([ncol] is shape[1]), the only case used by the package;
    ModelBlocks.v has any number of dimensions. *)
Definition make_square_blocks {A} (arr : list (list A)) (ncol : nat) (sizes : list nat)
    : res (list (list A)) :=
  if (Nat.eqb (length arr) ncol && Nat.eqb (length sizes) (length arr))%bool
  then Ok (map (fun row => np_repeat row sizes) (np_repeat arr sizes))
  else Err ValueError.

(* ------------------------------------------------------------------ *)
(** * xlogx *)

(** IEEE-like extended numbers: finite, infinities, NaN. *)
Inductive xr := Fin (r : R) | PInf | NInf | NaN.

(** flory/common/math.py:10-17 [xlogx] on finite input. *)
Definition xlogx (x : R) : xr :=
  if Req_EM_T x 0 then Fin 0 else if Rlt_dec x 0 then NaN else Fin (x * ln x).
