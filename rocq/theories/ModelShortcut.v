(** ModelShortcut.v -- flory/shortcut.py: [find_coexisting_phases]. *)

From Coq Require Import String Reals List Bool Arith ZArith.
From Verif Require Import Base ModelCommon ModelParts ModelKernel ModelPhases ModelFinder ModelObjects.
Import ListNotations.
Open Scope R_scope.

Section Shortcut.
Context {G St : Type} (ops : rng_ops G) (no : nat -> cons_obj St).
(** scipy's clustering with the default distance and numpy's argsort *)
Context (fcluster : list (list R) -> list nat) (argsort : list R -> list nat).

(** interaction/flory_huggins.py:355-382 and 100-110: the object created by
    [FloryHugginsInteraction(num_comp, chis)] *)
Definition fh_object (nc : nat) (chis : mat) : compilable interaction :=
  {| a_params := ["additional_chis_shift"%string];
     a_impl := fun kw => Ok (fh_compile nc chis (kw_default kw "additional_chis_shift" 1)) |}.
(** entropy/ideal_gas.py:248-259 *)
Definition ig_object (nc : nat) (sizes : vec) : compilable entropy :=
  {| a_params := []; a_impl := fun _ => Ok (ig_compiled nc sizes) |}.
(** ensemble/canonical.py:107-117 *)
Definition can_object (nc : nat) (means : vec) : compilable ensemble :=
  {| a_params := []; a_impl := fun _ => Ok (can_compiled nc means) |}.

(** entropy/ideal_gas.py:117-123: sizes, all one by default *)
Definition given_sizes (nc : nat) (sizes : option nd) : res vec :=
  match sizes with
  | None => Ok (fun _ => 1)
  | Some a => let* b := convert_and_broadcast a [nc] in Ok (fun i => nd_at b [i])
  end.

(** ensemble/base.py:68-69 and canonical.py:89-99: mean fractions, equal ones by
    default; fewer than one component is a ValueError *)
Definition given_means (nc : nat) (means : option nd) : res vec :=
  if Nat.ltb nc 1 then Err ValueError else
  match means with
  | None => Ok (fun _ => 1 / INR nc)
  | Some a => let* b := convert_and_broadcast a [nc] in Ok (fun i => nd_at b [i])
  end.

(** interaction/flory_huggins.py:100-110: broadcast and symmetrised *)
Definition given_chis (nc : nat) (chis : nd) : res mat :=
  let* b := convert_and_broadcast chis [nc; nc] in Ok (symmetrize (mat_of_nd b)).

(** shortcut.py:59-66: the finder.  [cons], [num_part], [par], [kw] and the
    generator are the keyword arguments passed on. *)
Definition shortcut_finder (nc : nat) (chis : nd) (means sizes : option nd)
    (cons : cons_arg St) (num_part : option nat) (par : params) (kw : dict) (g : G)
    : res (finder G St) :=
  let* A := given_chis nc chis in
  let* l := given_sizes nc sizes in
  let* x := given_means nc means in
  create ops no (fh_object nc A) (ig_object nc l) (can_object nc x) cons num_part par kw g.

(** shortcut.py:17-72.  The result carries its own copy of the diagnostics. *)
Definition find_coexisting_phases (nc : nat) (chis : nd) (means sizes : option nd)
    (cons : cons_arg St) (num_part : option nat) (par : params) (kw : dict) (g : G)
    : res (phases * option diag) :=
  let* f := shortcut_finder nc chis means sizes cons num_part par kw g in
  let '(f', r) := run ops f None None None in
  let* raw := r in
  let* c := get_clusters fcluster raw in
  let* s := ph_sort argsort c in
  let* p := ph_normalize s in
  Ok (p, f_diag f').

End Shortcut.
