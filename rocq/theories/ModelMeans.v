(** ModelMeans.v -- constructors and setters of the ensemble objects, with the
    warning of the canonical ensemble. *)

From Coq Require Import Reals List Bool Arith ZArith.
From Verif Require Import Base ModelCommon ModelParts.
Import ListNotations.
Open Scope R_scope.

(** [np.isclose(a, 1.0)] with the default tolerances *)
Definition isclose_one (a : R) : bool := Rleb (Rabs (a - 1)) (1 / 10 ^ 8 + 1 / 10 ^ 5 * Rabs 1).

(** object and whether the logger was called *)
Record ce := { ce_nc : nat; ce_means : vec }.

(** flory/ensemble/canonical.py:96-104 [phi_means.setter]: the warning comes
    after the assignment *)
Definition ce_set (n : nat) (a : nd) : res (ce * bool) :=
  let* b := broadcast_to a [n] in
  let x := fun i => nd_at b [i] in
  Ok ({| ce_nc := n; ce_means := x |}, negb (isclose_one (rsum n x))).

(** lines 75-92 [__init__] with base.py:62-71; [None]: [np.full(n, 1/n)] *)
Definition ce_new (num_comp : Z) (a : option nd) : res (ce * bool) :=
  if (num_comp <? 1)%Z then Err ValueError else
  let n := Z.to_nat num_comp in
  match a with
  | None => ce_set n {| nd_shape := [n]; nd_at := fun _ => 1 / IZR num_comp |}
  | Some a => ce_set n (atleast_1d a)
  end.

(** flory/ensemble/grandcanonical.py:69-96: constructor and setter *)
Record ge := { ge_nc : nat; ge_act : vec }.
Definition ge_set (n : nat) (a : nd) : res ge :=
  let* b := convert_and_broadcast a [n] in
  Ok {| ge_nc := n; ge_act := fun i => nd_at b [i] |}.
Definition ge_new (num_comp : Z) (a : nd) : res ge :=
  if (num_comp <? 1)%Z then Err ValueError else ge_set (Z.to_nat num_comp) a.

(** lines 98-129 [from_chemical_potential]; a negative dimension is a ValueError *)
Definition ge_from_mu (num_comp : Z) (mus : nd) (sizes : option nd) : res ge :=
  if (num_comp <? 0)%Z then Err ValueError else
  let n := Z.to_nat num_comp in
  let* b := convert_and_broadcast mus [n] in
  let* l := match sizes with
            | None => Ok (fun _ => 1)
            | Some a => let* c := convert_and_broadcast a [n] in Ok (fun i => nd_at c [i])
            end in
  ge_new num_comp {| nd_shape := [n];
                     nd_at := fun idx => match idx with [i] => gc_activity_from_mu (fun i => nd_at b [i]) l i | _ => 0 end |}.
